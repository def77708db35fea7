(** Lookup tables of edge_operator and the fitting of grouped coordinates into edges. *)
From Coq Require Import String List Bool Arith Lia Sorted Permutation.
From Verif Require Import Base.Outcome Base.SMap Model.Symmetry Model.Edge Model.Core Model.Transpose Model.EdgeOperator
  Spec.Blocks Spec.Fuse Spec.Strided Proof.SymmetryFacts Proof.LoopFacts Proof.CoreFacts Proof.ElemFacts Proof.OffsetFacts
  Proof.KernelFacts Proof.TransposeFacts Proof.GroupFacts Proof.CopyLoopFacts.
Import ListNotations.

Lemma existsb_false : forall A (f : A -> bool) l, (forall x, In x l -> f x = false) -> existsb f l = false.
Proof. induction l; simpl; intros H; auto. rewrite H by now left. apply IHl. auto. Qed.

Section Tables.
  Context {S R : Type} {SS : Sym S} {SL : SymLaws S}.
  Notation entry := (S * nat)%type.

  Lemma lookup_table_find : forall offs flag keys (k : list S),
    mfind k (lookup_table offs flag keys) =
    if existsb (fun ks => eqb k (fst ks)) keys
    then match group_lookup 0 offs flag k with Some l => Some (map fst l, map snd l) | None => None end
    else None.
  Proof.
    intros offs flag keys k. unfold lookup_table.
    assert (G : forall ks m, mfind k (fold_left (fun m (ks : list S * nat) =>
        match group_lookup 0 offs flag (fst ks) with
        | Some l => mset (fst ks) (map fst l, map snd l) m | None => m end) ks m) =
      if existsb (fun ks => eqb k (fst ks)) ks
      then match group_lookup 0 offs flag k with Some l => Some (map fst l, map snd l) | None => mfind k m end
      else mfind k m).
    { induction ks as [|[k0 n] ks IH]; intro m; [reflexivity|]. cbn [fold_left existsb fst]. rewrite IH.
      destruct (eqb k k0) eqn:E.
      - apply eqb_eq in E. subst k0. cbn [orb]. destruct (group_lookup 0 offs flag k) as [l|] eqn:G.
        + rewrite mfind_mset_same. now destruct (existsb _ ks).
        + now destruct (existsb _ ks).
      - cbn [orb]. apply eqb_false in E. destruct (group_lookup 0 offs flag k0); auto.
        rewrite mfind_mset_other by auto. reflexivity. }
    rewrite G. reflexivity.
  Qed.
  Lemma lookup_table_sorted : forall offs flag (keys : list (list S * nat)), msorted (lookup_table offs flag keys).
  Proof.
    intros offs flag keys. unfold lookup_table. assert (H : msorted (@nil (list S * (list S * list nat)))) by constructor.
    revert H. generalize (@nil (list S * (list S * list nat))). induction keys as [|k keys IH]; intros m H; [exact H|].
    cbn [fold_left]. apply IH. destruct (group_lookup 0 offs flag (fst k)); auto. now apply mset_sorted.
  Qed.
  Lemma identity_table_find : forall rank (blocks : list (list S * list R)) (k : list S),
    mfind k (identity_table rank blocks) = if existsb (fun kb => eqb k (fst kb)) blocks then Some (k, repeat 0 rank) else None.
  Proof.
    intros rank blocks k. unfold identity_table.
    assert (G : forall bl m, mfind k (fold_left (fun m (kb : list S * list R) => mset (fst kb) (fst kb, repeat 0 rank) m) bl m) =
      if existsb (fun kb => eqb k (fst kb)) bl then Some (k, repeat 0 rank) else mfind k m).
    { induction bl as [|[k0 b] bl IH]; intro m; [reflexivity|]. cbn [fold_left existsb fst]. rewrite IH.
      destruct (eqb k k0) eqn:E.
      - apply eqb_eq in E. subst k0. cbn [orb]. rewrite mfind_mset_same. now destruct (existsb _ bl).
      - cbn [orb]. apply eqb_false in E. now rewrite mfind_mset_other by auto. }
    rewrite G. reflexivity.
  Qed.
  Lemma identity_table_sorted : forall rank (blocks : list (list S * list R)), msorted (identity_table rank blocks).
  Proof.
    intros rank blocks. unfold identity_table. assert (H : msorted (@nil (list S * (list S * list nat)))) by constructor.
    revert H. generalize (@nil (list S * (list S * list nat))). induction blocks as [|k bl IH]; intros m H; [exact H|].
    cbn [fold_left]. apply IH. now apply mset_sorted.
  Qed.
  Lemma existsb_key : forall V (m : list (list S * V)) k, existsb (fun kb => eqb k (fst kb)) m = true <-> In k (map fst m).
  Proof.
    intros. rewrite existsb_exists, in_map_iff. split.
    - intros [kb [H1 H2]]. apply eqb_eq in H2. exists kb. auto.
    - intros [kb [H1 H2]]. exists kb. split; auto. subst. apply eqb_refl.
  Qed.

  (** a group of maps together with the charges that have a place on the fused edge *)
  Definition gk : Type := (list (list entry) * (S -> bool))%type.
  Definition all_kept (mks : list gk) (gks : list (list S)) : bool :=
    forallb (fun x => snd (fst x) (ssum (snd x))) (combine mks gks).
  Definition tab_rel (mk : gk) (off : offset_map) : Prop :=
    (length (fst mk) = 1 /\ forall s, snd mk s = true) \/ (length (fst mk) <> 1 /\ table_ok (fst mk) (snd mk) off).

  Lemma merged_offset_one : forall (m : list entry) s, merged_offset [m] [s] = 0.
  Proof.
    intros m s. unfold merged_offset.
    replace (filter (fun t => eqb (total t) (ssum [s]) && ltb (map fst t) [s]) (tuples [m])) with (@nil (list entry)); [reflexivity|].
    symmetry. assert (Ht : tuples [m] = map (fun x => [x]) m) by (cbn [tuples]; induction m as [|? ? IHm]; simpl in *; [reflexivity|now rewrite IHm]). rewrite Ht. clear Ht.
    induction m as [|[s' d] m IH]; [reflexivity|]. cbn [map filter].
    assert (E : eqb (total [(s', d)]) (ssum [s]) && ltb [fst (s', d)] [s] = false).
    { destruct (eqb (total [(s', d)]) (ssum [s])) eqn:E1; [|reflexivity]. apply eqb_eq in E1. unfold total, ssum in E1. simpl in E1.
      rewrite !sadd_0_l in E1. subst s'. unfold ltb. cbn. now rewrite cmp_refl. }
    rewrite E. exact IH.
  Qed.
  Lemma ssum_one : forall s : S, ssum [s] = s.
  Proof. intro s. unfold ssum. simpl. apply sadd_0_l. Qed.

  Lemma look_ok : forall (mks : list gk) offs gks, Forall2 tab_rel mks offs ->
    Forall2 (fun mk k => exists ds, dims_of (fst mk) k = Some ds) mks gks ->
    look offs gks = if all_kept mks gks then Some (combine (map ssum gks) (offsets (map fst mks) gks)) else None.
  Proof.
    intros mks offs gks H. revert gks. induction H as [|mk off mks offs Hr H IH]; intros gks HD; inversion HD; subst; [reflexivity|].
    cbn [look]. rewrite IH by auto. unfold all_kept. cbn [combine forallb fst snd]. fold (all_kept mks l').
    destruct H2 as [ds Hds]. apply dims_of_length in Hds as HL. destruct HL as [L1 L2].
    assert (H1 : look1 off y = if snd mk (ssum y) then Some (ssum y, merged_offset (fst mk) y) else None).
    { destruct Hr as [[Hl Hk]|[Hl [_ Ht]]].
      - rewrite Hk. destruct (fst mk) as [|m [|? ?]]; try discriminate. destruct y as [|s [|? ?]]; try discriminate.
        cbn [look1]. rewrite merged_offset_one, ssum_one. reflexivity.
      - assert (Hl2 : look1 off y = mfind y off) by (destruct y as [|? [|? ?]]; simpl in *; try reflexivity; lia).
        rewrite Hl2, Ht.
        replace (existsb (fun t => eqb (map fst t) y && snd mk (total t)) (tuples (fst mk))) with (snd mk (ssum y)); [reflexivity|].
        symmetry. destruct (snd mk (ssum y)) eqn:Ek.
        + apply existsb_exists. exists (combine y ds). split; [now apply dims_tuple|].
          unfold total. rewrite combine_map_fst by lia. rewrite eqb_refl. exact Ek.
        + apply existsb_false. intros t _. destruct (eqb (map fst t) y) eqn:E1; [|reflexivity].
          apply eqb_eq in E1. unfold total. now rewrite E1, Ek. }
    rewrite H1. destruct (snd mk (ssum y)); [|reflexivity]. cbn [andb]. destruct (all_kept mks l'); reflexivity.
  Qed.

  Lemma dims_groups : forall (gm : list (list (list entry))) key ds, dims_of (concat gm) key = Some ds ->
    Forall2 (fun m k => exists ds, dims_of m k = Some ds) gm (group_by gm key).
  Proof.
    induction gm as [|m gm IH]; intros key ds H; [constructor|].
    simpl concat in H. apply dims_of_length in H as HL. destruct HL as [L1 L2]. rewrite app_length in *.
    rewrite <- (firstn_skipn (length m) key) in H.
    rewrite dims_of_app in H by (rewrite firstn_length; lia).
    destruct (dims_of m (firstn (length m) key)) as [d1|] eqn:E1; [|discriminate].
    destruct (dims_of (concat gm) (skipn (length m) key)) as [d2|] eqn:E2; [|discriminate].
    cbn [group_by]. constructor; [eauto|]. eapply IH; eauto.
  Qed.

  (** every kept total of the group has a segment large enough in [m] *)
  Definition fit (mk : gk) (m : list entry) : Prop :=
    forall s, snd mk s = true -> existsb (fun t => eqb (total t) s) (tuples (fst mk)) = true ->
    exists d, mfind s m = Some d /\ merged_dim (fst mk) s <= d.

  Lemma tuple_exists : forall (maps : list (list entry)) k ds, dims_of maps k = Some ds ->
    existsb (fun t => eqb (total t) (ssum k)) (tuples maps) = true.
  Proof.
    intros maps k ds H. apply existsb_exists. exists (combine k ds). split; [now apply dims_tuple|].
    apply dims_of_length in H as [L1 L2]. unfold total. rewrite combine_map_fst by lia. apply eqb_refl.
  Qed.

  Lemma fit_dims : forall (mks : list gk) ms gks, Forall2 fit mks ms ->
    Forall2 (fun mk k => exists ds, dims_of (fst mk) k = Some ds) mks gks -> all_kept mks gks = true ->
    exists sd, dims_of ms (map ssum gks) = Some sd.
  Proof.
    intros mks ms gks H. revert gks. induction H as [|mk m mks ms Hf H IH]; intros gks HD HK; inversion HD; subst; [exists []; reflexivity|].
    unfold all_kept in HK. cbn [combine forallb fst snd] in HK. apply andb_true_iff in HK as [K1 K2].
    destruct H2 as [ds Hds]. destruct (Hf _ K1 (tuple_exists _ _ _ Hds)) as [d [Hd _]].
    destruct (IH _ H4 K2) as [sd Hsd]. exists (d :: sd). cbn [map dims_of]. now rewrite Hd, Hsd.
  Qed.
  Lemma fit_range : forall (mks : list gk) ms gp, Forall2 fit mks ms -> Forall sorted_maps (map fst mks) ->
    Forall2 in_range (map fst mks) gp -> all_kept mks (map (map fst) gp) = true ->
    in_range ms (fuses (map fst mks) gp).
  Proof.
    intros mks ms gp H. revert gp. induction H as [|mk m mks ms Hf H IH]; intros gp HS HR HK; inversion HR; subst; [constructor|].
    unfold all_kept in HK. cbn [map combine forallb fst snd] in HK. apply andb_true_iff in HK as [K1 K2].
    inversion HS; subst.
    assert (Hex : existsb (fun t => eqb (total t) (total y)) (tuples (fst mk)) = true).
    { destruct (in_range_tuple _ _ H3 H2) as [t [Ht [E1 _]]]. apply existsb_exists. exists t. split; auto.
      unfold total. rewrite E1. apply eqb_refl. }
    destruct (Hf _ K1 Hex) as [d [Hd Hle]]. pose proof (fuse_bound _ _ H3 H2) as Hb. apply (Nat.lt_le_trans _ _ _ Hb) in Hle. clear Hb.
    unfold fuses. cbn [map combine fst snd]. unfold fuse in *. cbn [fst snd] in *. econstructor.
    - apply mfind_In. exact Hd.
    - exact Hle.
    - apply IH; auto.
  Qed.

  (** the same for one charge tuple of the group *)
  Definition key_fit (mkk : gk * list S) (m : list entry) : Prop :=
    exists d, mfind (ssum (snd mkk)) m = Some d /\ merged_dim (fst (fst mkk)) (ssum (snd mkk)) <= d.
  Lemma key_fit_dims : forall (mks : list gk) ms gks, length gks = length mks -> Forall2 key_fit (combine mks gks) ms ->
    exists sd, dims_of ms (map ssum gks) = Some sd.
  Proof.
    induction mks as [|mk mks IH]; intros ms [|k gks] HL H; try discriminate; inversion H as [|x m y ms' [d [Hd _]] H2]; subst; [exists []; reflexivity|].
    destruct (IH ms' gks) as [sd Hsd]; auto. exists (d :: sd). cbn [map dims_of snd] in *. now rewrite Hd, Hsd.
  Qed.
  Lemma key_fit_range : forall (mks : list gk) ms gp, Forall2 key_fit (combine mks (map (map fst) gp)) ms -> Forall sorted_maps (map fst mks) ->
    Forall2 in_range (map fst mks) gp -> in_range ms (fuses (map fst mks) gp).
  Proof.
    induction mks as [|mk mks IH]; intros ms gp H HS HR; inversion HR as [|? y ? gp' HR1 HR2]; subst; cbn [map combine] in H; inversion H as [|x m z ms' [d [Hd Hle]] H2']; subst; [constructor|].
    inversion HS as [|? ? HS1 HS2]; subst. cbn [fst snd] in *.
    pose proof (fuse_bound _ _ HS1 HR1) as Hb. apply (Nat.lt_le_trans _ _ _ Hb) in Hle. clear Hb.
    unfold fuses. cbn [map combine fst snd]. unfold fuse in *. cbn [fst snd] in *. econstructor.
    - apply mfind_In. exact Hd.
    - exact Hle.
    - apply IH; auto.
  Qed.

  (** the map of a merged edge *)
  Definition merged_map (maps : list (list entry)) (m : list entry) : Prop :=
    msorted m /\ forall s, mfind s m = if existsb (fun t => eqb (total t) s) (tuples maps) then Some (merged_dim maps s) else None.
  Definition keep_all (maps : list (list entry)) : gk := (maps, fun _ => true).

  Lemma merged_map_fit : forall maps m, merged_map maps m -> fit (keep_all maps) m.
  Proof. intros maps m [_ H] s _ Hex. cbn [fst snd keep_all] in *. rewrite H, Hex. eexists. split; eauto. Qed.
  Lemma tuples_one : forall m : list entry, tuples [m] = map (fun x => [x]) m.
  Proof. intro m. cbn [tuples]. induction m as [|? ? IHm]; simpl in *; [reflexivity|now rewrite IHm]. Qed.
  Lemma merged_dim_one : forall (m : list entry) s d, msorted m -> mfind s m = Some d -> merged_dim [m] s = d.
  Proof.
    intros m s d Hs Hf. unfold merged_dim. rewrite tuples_one.
    apply msorted_nodup in Hs. induction m as [|[s' d'] m IH]; [discriminate|]. inversion Hs; subst.
    cbn [map filter mfind] in *. unfold total at 1. cbn [map fst]. rewrite ssum_one.
    rewrite (eqb_sym s' s). destruct (eqb s s') eqn:E.
    - injection Hf as ->. apply eqb_eq in E. subst s'. cbn [map list_sum].
      replace (filter (fun t => eqb (total t) s) (map (fun x => [x]) m)) with (@nil (list entry)).
      + unfold volume. simpl. lia.
      + symmetry. clear IH Hs H2. induction m as [|[s' d'] m IH]; [reflexivity|]. cbn [map filter]. unfold total at 1. cbn [map fst].
        rewrite ssum_one. destruct (eqb s' s) eqn:E; [apply eqb_eq in E; subst; exfalso; apply H1; now left|].
        apply IH. intro; apply H1; now right.
    - now apply IH.
  Qed.
  Lemma merged_map_one : forall m : list entry, msorted m -> merged_map [m] m.
  Proof.
    intros m Hs. split; auto. intro s. destruct (mfind s m) as [d|] eqn:E.
    - rewrite (merged_dim_one m s d) by auto.
      replace (existsb (fun t => eqb (total t) s) (tuples [m])) with true; [reflexivity|]. symmetry.
      apply existsb_exists. exists [(s, d)]. split.
      + rewrite tuples_one. apply in_map_iff. exists (s, d). split; auto. now apply mfind_In.
      + unfold total. cbn [map fst]. rewrite ssum_one. apply eqb_refl.
    - replace (existsb (fun t => eqb (total t) s) (tuples [m])) with false; [reflexivity|]. symmetry.
      apply existsb_false. intros t Ht. rewrite tuples_one in Ht. apply in_map_iff in Ht as [[s' d] [<- HI]].
      unfold total. cbn [map fst]. rewrite ssum_one. apply eqb_false. intros ->. apply mfind_None in E. apply E.
      change s with (fst (s, d)). now apply in_map.
  Qed.

  Lemma all_kept_all : forall gm gks, all_kept (map keep_all gm) gks = true.
  Proof.
    intros gm. unfold all_kept. induction gm as [|m gm IH]; intros [|k gks]; auto. cbn [map combine forallb fst snd keep_all].
    simpl. apply IH.
  Qed.
  Lemma map_fst_keep_all : forall gm, map fst (map keep_all gm) = gm.
  Proof. intro gm. rewrite map_map. apply map_id. Qed.

  Lemma fuses_surj : forall (gm : list (list (list entry))) ms x, Forall2 merged_map gm ms -> Forall sorted_maps gm ->
    in_range ms x -> exists gp, Forall2 in_range gm gp /\ fuses gm gp = x.
  Proof.
    intros gm ms x H. revert x. induction H as [|m0 m gm ms Hm H IH]; intros x HS HR; inversion HR; subst.
    - exists []. split; constructor.
    - inversion HS; subst. destruct Hm as [Hms Hm]. apply (In_mfind _ _ _ Hms) in H2. rewrite Hm in H2.
      destruct (existsb (fun t => eqb (total t) s) (tuples m0)); [|discriminate]. injection H2 as <-.
      destruct (fuse_surjective m0 s i H4 H3) as [p [P1 P2]]. destruct (IH _ H6 H5) as [gp [G1 G2]].
      exists (p :: gp). split; [constructor; auto|]. unfold fuses in *. cbn [combine map fst snd]. now rewrite P2, G2.
  Qed.

  (** pruning *)
  Lemma mfind_filter_key : forall (m : list entry) (f : S -> bool) s,
    mfind s (filter (fun sd => f (fst sd)) m) = if f s then mfind s m else None.
  Proof.
    induction m as [|[s' d] m IH]; intros f s; cbn [filter mfind fst]; [now destruct (f s)|].
    destruct (f s') eqn:E.
    - cbn [mfind]. destruct (eqb s s') eqn:E2; [apply eqb_eq in E2; subst; now rewrite E|apply IH].
    - rewrite IH. destruct (eqb s s') eqn:E2; [|reflexivity]. apply eqb_eq in E2. subst. now rewrite E.
  Qed.
  Lemma prune_dims : forall (blocks : list (list S * list R)) es i key,
    dims_of (maps_of (prune_from blocks i es)) key =
    if forallb (fun x => used_in blocks (fst x) (snd x)) (combine (seq i (length key)) key) then dims_of (maps_of es) key
    else dims_of (maps_of (prune_from blocks i es)) key.
  Proof.
    intros blocks es. induction es as [|e es IH]; intros i [|s key]; cbn [prune_from maps_of map dims_of length seq combine forallb fst snd];
      try reflexivity.
    - now destruct (_ && _).
    - cbn [emap]. rewrite (mfind_filter_key (emap e) (used_in blocks i)).
      destruct (used_in blocks i s) eqn:U; [|reflexivity]. cbn [andb].
      specialize (IH (1 + i) key). fold (maps_of (prune_from blocks (1 + i) es)). fold (maps_of es).
      change (Datatypes.S i) with (1 + i).
      destruct (forallb (fun x => used_in blocks (fst x) (snd x)) (combine (seq (1 + i) (length key)) key)); [|reflexivity].
      destruct (mfind s (emap e)); [|reflexivity]. now rewrite IH.
  Qed.
  Lemma prune_dims_block : forall (blocks : list (list S * list R)) es key,
    In key (map fst blocks) -> dims_of (maps_of (prune_from blocks 0 es)) key = dims_of (maps_of es) key.
  Proof.
    intros blocks es key HI. rewrite prune_dims.
    replace (forallb (fun x => used_in blocks (fst x) (snd x)) (combine (seq 0 (length key)) key)) with true; [reflexivity|].
    symmetry. apply forallb_forall. intros [j s] Hx. cbn [fst snd]. apply used_in_true. exists key. split; auto.
    assert (G : forall (k : list S) n, In (j, s) (combine (seq n (length k)) k) -> n <= j /\ nth_error k (j - n) = Some s).
    { clear. induction k as [|a k IH]; intros n H; simpl in H; [contradiction|]. destruct H as [H|H].
      - injection H as -> ->. split; [lia|]. now rewrite Nat.sub_diag.
      - apply IH in H as [H1 H2]. split; [lia|]. replace (j - n) with (Datatypes.S (j - Datatypes.S n)) by lia. exact H2. }
    destruct (G _ _ Hx) as [_ H]. now rewrite Nat.sub_0_r in H.
  Qed.
  Lemma prune_range : forall (blocks : list (list S * list R)) es p, sorted_maps (maps_of es) ->
    In (map fst p) (map fst blocks) -> in_range (maps_of es) p -> in_range (maps_of (prune_from blocks 0 es)) p.
  Proof.
    intros blocks es p Hs HI HR. apply in_range_dims in HR as [ds [H1 H2]]; auto.
    apply in_range_dims; [now apply prune_sorted|]. exists ds. split; auto. now rewrite prune_dims_block.
  Qed.
  Lemma prune_range_inv : forall (blocks : list (list S * list R)) es i p,
    in_range (maps_of (prune_from blocks i es)) p -> in_range (maps_of es) p.
  Proof.
    intros blocks es. induction es as [|e es IH]; intros i p H; inversion H; subst; [constructor|].
    cbn [emap] in H2. apply filter_In in H2 as [H2 _]. econstructor; eauto.
  Qed.
End Tables.
