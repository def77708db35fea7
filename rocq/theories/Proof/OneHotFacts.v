(** The helper of shrink and expand: one element is one, and contracting with it selects. *)
From Coq Require Import String List Bool Arith Lia Permutation.
From Verif Require Import Base.Outcome Base.SMap Model.Symmetry Model.Edge Model.Core Model.EdgeOperator Model.Elementwise Model.Contract Model.ShrinkExpand
  Spec.Blocks Spec.Fuse Spec.Relabel Spec.Contract Proof.SymmetryFacts Proof.CoreFacts Proof.LoopFacts Proof.ElemFacts Proof.ConstructFacts
  Proof.NamedOperator Proof.LegFacts Proof.ContractNames Proof.SumFacts Proof.CopyLoopFacts Proof.ContractSym.
Import ListNotations.

Section OneHot.
  Context {S R : Type} {SS : Sym S} {SL : SymLaws S} {RR : Scalar R}.
  Notation entry := (S * nat)%type.
  Variable E : @env R.
  (** charge, dimension, selected index and arrow of every edge of the helper *)
  Variables (c : nat -> S) (d g : nat -> nat) (ar : nat -> bool).
  Local Notation eg := (fun n => mkEdge (ar n) [(c n, d n)]).
  Local Notation hot pos l := (forallb (fun n => snd (coord pos n) =? g n) l).

  Lemma map_repeat : forall A B (f : A -> B) x n, map f (repeat x n) = repeat (f x) n.
  Proof. intros A B f x n. induction n; cbn [repeat map]; congruence. Qed.
  Lemma tuples_single : forall A (l : list A), tuples (map (fun x => [x]) l) = [l].
  Proof. intros A l. induction l as [|a l IH]; [reflexivity|]. cbn [map tuples]. rewrite IH. reflexivity. Qed.
  Lemma single_maps : forall ns, maps_of (map eg ns) = map (fun x => [x]) (map (fun n => (c n, d n)) ns).
  Proof. intro ns. unfold maps_of. rewrite !map_map. reflexivity. Qed.
  Lemma single_sorted : forall ns, sorted_maps (maps_of (map eg ns)).
  Proof. intro ns. rewrite single_maps. unfold sorted_maps. rewrite Forall_map. apply Forall_forall. intros x _. repeat constructor. Qed.
  Lemma single_dims : forall ns, dims_of (maps_of (map eg ns)) (map c ns) = Some (map d ns).
  Proof. intro ns. induction ns as [|n ns IH]; [reflexivity|]. cbn [map maps_of dims_of emap mfind]. rewrite eqb_refl. unfold maps_of in IH. rewrite IH. reflexivity. Qed.
  Lemma single_prune : forall (b : list R) ns, prune_from [(map c ns, b)] 0 (map eg ns) = map eg ns.
  Proof.
    intros b ns. apply prune_id. intros j e s He Hs. rewrite nth_error_map in He. destruct (nth_error ns j) as [n|] eqn:En; [|discriminate He]. injection He as <-.
    cbn [emap map fst In] in Hs. destruct Hs as [<-|[]]. apply used_in_true. exists (map c ns). split; [now left|]. cbn [Nat.add]. now rewrite nth_error_map, En.
  Qed.
  Lemma lt_dims : forall (f : nat -> nat) ns, (forall n, In n ns -> f n < d n) -> Forall2 lt (map f ns) (map d ns).
  Proof. intros f ns H. induction ns as [|n ns IH]; cbn [map]; constructor; [apply H; now left|]. apply IH. intros; apply H; now right. Qed.

  Lemma one_hot_ok : forall ns, NoDup ns -> ssum (map c ns) = szero -> (forall n, In n ns -> g n < d n) ->
    exists h, one_hot E ns (map eg ns) (row_major (map d ns) (map g ns)) = Ok h /\ wf_tensor h /\ t_names h = ns /\ t_edges h = map eg ns /\ t_blocks h <> [] /\
      forall pos, (forall n, In n ns -> exists i, mfind n pos = Some (c n, i) /\ i < d n) -> const_at h pos = Ok (if hot pos ns then rone else rzero).
  Proof.
    intros ns Hn Hz Hg. destruct (make_tensor_ok (env_junk E) ns (map eg ns) false (single_sorted ns) Hn (eq_sym (map_length _ _))) as [h0 [M1 [M2 [M3 [M4 M5]]]]].
    rewrite andb_false_r in M5.
    assert (BL : block_list (maps_of (map eg ns)) = [(map c ns, prod (map d ns))]).
    { unfold block_list. rewrite single_maps, tuples_single. unfold zero_sum, block_of. cbn [filter map]. rewrite !map_map. cbn [fst snd].
      change (map (fun x => c x) ns) with (map c ns). rewrite Hz, eqb_refl. cbn [map]. rewrite !map_map. reflexivity. }
    rewrite BL in M4, M5. cbn [junk_blocks map fst snd] in M4, M5. rewrite single_prune in M5.
    assert (Hlt : row_major (map d ns) (map g ns) < length (repeat (@rzero R RR) (prod (map d ns)))) by (rewrite repeat_length; now apply row_major_lt, lt_dims).
    destruct (update_some _ _ rone Hlt) as [b' Hb']. set (h := mkTensor (t_names h0) (mkCore (t_edges h0) [(map c ns, b')])).
    assert (W : wf_tensor h).
    { destruct M2 as [Wc Wn Wr]. constructor; [|exact Wn|exact Wr]. unfold h. cbn [t_core]. apply (shape_wf (t_core h0)); [exact Wc|reflexivity|].
      cbn [c_blocks]. change (c_blocks (t_core h0)) with (t_blocks h0). rewrite M4. unfold shape. cbn [map fst snd]. apply update_length in Hb'. rewrite Hb', !repeat_length. reflexivity. }
    exists h. split; [|split; [exact W|split; [exact M3|split; [exact M5|split; [discriminate|]]]]].
    - unfold one_hot. rewrite M1. cbn [bind]. unfold transform, t_blocks in *. cbn [t_core c_blocks]. rewrite M4. cbn [map fst snd]. rewrite map_repeat, Hb'. reflexivity.
    - intros pos Hpos.
      assert (HA : assigns pos (t_names h) (map (fun n => (c n, snd (coord pos n))) ns)).
      { unfold assigns. change (t_names h) with (t_names h0). rewrite M3, map_map. apply map_ext_in. intros n Hin. destruct (Hpos n Hin) as [i [Hi _]]. unfold coord. now rewrite Hi. }
      assert (HL : forall n, In n ns -> snd (coord pos n) < d n).
      { intros n Hin. destruct (Hpos n Hin) as [i [Hi Hd]]. unfold coord. now rewrite Hi. }
      assert (HV : valid_pt (t_core h) (map (fun n => (c n, snd (coord pos n))) ns)).
      { split; [|rewrite map_map; exact Hz]. change (c_edges (t_core h)) with (t_edges h0). rewrite M5. unfold maps_of. rewrite map_map.
        apply in_range_named. intros n Hin. cbn [fst snd emap]. exists (d n). split; [now left|now apply HL]. }
      destruct (const_at_elem h pos _ W HA HV) as [v [Hv ->]]. f_equal. unfold elem in Hv. change (c_edges (t_core h)) with (t_edges h0) in Hv. rewrite M5, !map_map in Hv.
      cbn [fst snd] in Hv. change (map (fun x => c x) ns) with (map c ns) in Hv. rewrite single_dims in Hv. unfold h in Hv. cbn [t_core c_blocks mfind] in Hv. rewrite eqb_refl in Hv.
      destruct (hot pos ns) eqn:Eh.
      + replace (map (fun n => snd (coord pos n)) ns) with (map g ns) in Hv.
        { rewrite (update_same _ _ _ _ Hb') in Hv. now injection Hv. }
        apply map_ext_in. intros n Hin. rewrite forallb_forall in Eh. symmetry. now apply Nat.eqb_eq, Eh.
      + rewrite (update_other _ _ _ _ _ Hb') in Hv.
        { apply nth_error_In, repeat_spec in Hv. exact Hv. }
        intro Heq. apply row_major_inj in Heq; [|now apply lt_dims|now apply lt_dims].
        assert (Ht : hot pos ns = true); [|rewrite Ht in Eh; discriminate Eh].
        apply forallb_forall. intros n Hin. apply Nat.eqb_eq. apply (ext_in_map Heq n Hin).
  Qed.
  (** no block at all *)
  Lemma one_hot_no_block : forall ns off, NoDup ns -> ssum (map c ns) <> szero -> one_hot E ns (map eg ns) off = UB.
  Proof.
    intros ns off Hn Hz. destruct (make_tensor_ok (env_junk E) ns (map eg ns) false (single_sorted ns) Hn (eq_sym (map_length _ _))) as [h0 [M1 [M2 [M3 [M4 M5]]]]].
    assert (BL : block_list (maps_of (map eg ns)) = []).
    { unfold block_list. rewrite single_maps, tuples_single. unfold zero_sum. cbn [filter]. rewrite !map_map. cbn [fst].
      destruct (eqb (ssum (map (fun x => c x) ns)) szero) eqn:Ez; [|reflexivity]. exfalso. apply Hz. apply eqb_eq in Ez. exact Ez. }
    rewrite BL in M4. unfold one_hot. rewrite M1. cbn [bind]. unfold transform, t_blocks in *. cbn [t_core c_blocks]. rewrite M4. reflexivity.
  Qed.

  Hypothesis EA : exact_arithmetic R.
  Lemma rsum_single : forall A (f : A -> R) l x, NoDup l -> In x l -> (forall y, In y l -> y <> x -> f y = rzero) -> rsum (map f l) = f x.
  Proof.
    intros A f l x Hn Hin H. destruct (in_split _ _ Hin) as [l1 [l2 ->]]. rewrite (rsum_perm EA _ (map f (x :: l1 ++ l2))) by (apply Permutation_map, Permutation_sym, Permutation_middle).
    cbn [map]. change (rsum (f x :: map f (l1 ++ l2))) with (radd (f x) (rsum (map f (l1 ++ l2)))). rewrite (rsum_zero EA).
    - rewrite (ea_add_comm _ EA). apply (ea_add_0 _ EA).
    - intros y Hy. apply in_map_iff in Hy as [z [<- Hz]]. apply NoDup_remove in Hn as [_ Hn]. apply H; [|intros ->; contradiction].
      apply in_or_app. apply in_app_or in Hz as [Hz|Hz]; [now left|right; now right].
  Qed.

  Section Select.
    Variables (h t : tensor S R) (ns C : list nat).
    Hypotheses (Wh : wf_tensor h) (Nh : t_names h = ns) (Eh : t_edges h = map eg ns) (Hg : forall n, In n ns -> g n < d n) (Cn : NoDup C) (Ci : incl C ns)
      (Hh : forall pos, (forall n, In n ns -> exists i, mfind n pos = Some (c n, i) /\ i < d n) -> const_at h pos = Ok (if hot pos ns then rone else rzero)).
    Local Notation rest := (free_names ns C).
    Lemma hot_named : forall n, In n ns -> edge_named (legs_of h) n = eg n.
    Proof.
      intros n Hin. apply (leg_named h n); [exact Wh|]. unfold legs_of. rewrite Nh, Eh. clear - Hin. induction ns as [|m l IH]; [destruct Hin|].
      cbn [map combine]. destruct Hin as [->|Hin]; [now left|right; auto].
    Qed.
    Lemma in_rest : forall n, In n rest <-> In n ns /\ ~ In n C.
    Proof. intro n. unfold free_names. rewrite filter_In, negb_true_iff. now rewrite <- (mem_name_false n C). Qed.
    Lemma select : forall pos, (forall n, In n rest -> exists i, mfind n pos = Some (c n, i) /\ i < d n) ->
      contract_sum h t (map (fun n => (n, n)) C) pos =
      if hot pos rest then element t (combine C (map (fun n => (sneg (c n), g n)) C) ++ pos) else rzero.
    Proof.
      intros pos Hpos. unfold contract_sum. rewrite !map_map. cbn [fst snd]. rewrite map_id.
      assert (HM : map (fun n => emap (edge_named (legs_of h) n)) C = map (fun n => [(c n, d n)]) C).
      { apply map_ext_in. intros n Hin. rewrite hot_named by (now apply Ci). reflexivity. }
      rewrite HM. set (p0 := map (fun n => (c n, g n)) C).
      assert (Hp0 : In p0 (points (map (fun n => [(c n, d n)]) C))).
      { apply in_points. apply in_range_named. intros n Hin. cbn [fst snd]. exists (d n). split; [now left|]. apply Hg. now apply Ci. }
      assert (HP : forall pt, In pt (points (map (fun n => [(c n, d n)]) C)) ->
        element h (combine C pt ++ pos) = if hot (combine C pt) C && hot pos rest then rone else rzero).
      { intros pt Hpt. apply in_points in Hpt. pose proof (in_range_length _ _ Hpt) as HL. rewrite map_length in HL.
        assert (Hc : forall n, In n C -> exists i, mfind n (combine C pt) = Some (c n, i) /\ i < d n).
        { intros n Hin. rewrite <- (combine_coords C pt Cn (eq_sym HL)) in Hpt. destruct (proj1 (in_range_named _ _ _) Hpt n Hin) as [k [[Hk|[]] Hlt]].
          injection Hk as Hk1 Hk2. subst k. destruct (find_combine C pt n Cn (eq_sym HL) Hin) as [[s i] [Hx _]]. unfold coord in Hk1, Hlt. rewrite Hx in Hk1, Hlt. cbn [fst snd] in *. subst s. eauto. }
        unfold element. rewrite Hh.
        - replace (hot (combine C pt ++ pos) ns) with (hot (combine C pt) C && hot pos rest); [reflexivity|].
          apply eq_true_iff_eq. rewrite andb_true_iff, !forallb_forall. split.
          + intros [H1 H2] n Hin. destruct (in_dec Nat.eq_dec n C) as [Hx|Hx].
            * rewrite <- (H1 n Hx). destruct (Hc n Hx) as [i [Hi _]]. unfold coord. now rewrite mfind_app, Hi.
            * rewrite <- (H2 n (proj2 (in_rest n) (conj Hin Hx))). unfold coord. rewrite mfind_app, find_combine_none; auto.
          + intro H. split; intros n Hin.
            * rewrite <- (H n (Ci _ Hin)). destruct (Hc n Hin) as [i [Hi _]]. unfold coord. now rewrite mfind_app, Hi.
            * apply in_rest in Hin as [Hin Hx]. rewrite <- (H n Hin). unfold coord. rewrite mfind_app, find_combine_none; auto.
        - intros n Hin. rewrite mfind_app. destruct (in_dec Nat.eq_dec n C) as [Hx|Hx].
          + destruct (Hc n Hx) as [i [Hi Hlt]]. exists i. now rewrite Hi.
          + rewrite find_combine_none by auto. apply Hpos. now apply in_rest. }
      rewrite (rsum_single _ _ _ p0).
      - rewrite (HP p0 Hp0). assert (Hhot : hot (combine C p0) C = true).
        { apply forallb_forall. intros n Hin. apply Nat.eqb_eq. assert (HL : length C = length p0) by (unfold p0; now rewrite map_length).
          pose proof (combine_coords C p0 Cn HL) as Hq. unfold p0 in Hq at 2. pose proof (ext_in_map Hq n Hin) as Hr. cbn beta in Hr. now rewrite Hr. }
        rewrite Hhot. cbn [andb]. destruct (hot pos rest).
        + rewrite (ea_mul_1 _ EA). unfold p0. rewrite map_map. reflexivity.
        + apply (ea_mul_0 _ EA).
      - apply NoDup_points. unfold sorted_maps. rewrite Forall_map. apply Forall_forall. intros x _. repeat constructor.
      - exact Hp0.
      - intros pt Hpt Hne. rewrite (HP pt Hpt). apply in_points in Hpt as Hr. pose proof (in_range_length _ _ Hr) as HL. rewrite map_length in HL.
        destruct (hot (combine C pt) C) eqn:Ec; [exfalso|cbn [andb]; apply (ea_mul_0 _ EA)]. apply Hne. rewrite <- (combine_coords C pt Cn (eq_sym HL)). unfold p0. apply map_ext_in.
        intros n Hin. rewrite forallb_forall in Ec. specialize (Ec n Hin). apply Nat.eqb_eq in Ec. rewrite <- (combine_coords C pt Cn (eq_sym HL)) in Hr.
        destruct (proj1 (in_range_named _ _ _) Hr n Hin) as [k [[Hk|[]] _]]. injection Hk as Hk _. rewrite (surjective_pairing (coord (combine C pt) n)), Ec. now rewrite <- Hk.
    Qed.
  End Select.
End OneHot.
