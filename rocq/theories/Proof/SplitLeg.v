(** A tensor with two legs, one of which is split into parts and the other one possibly cut (the last step of qr and svd). *)
From Coq Require Import String List Bool Arith Lia Sorted Permutation.
From Verif Require Import Base.Outcome Base.SMap Model.Symmetry Model.Edge Model.Core Model.Transpose Model.EdgeOperator
  Spec.Blocks Spec.Fuse Spec.Sign Spec.Relabel Spec.Contract Proof.SymmetryFacts Proof.LoopFacts Proof.CoreFacts Proof.ConstructFacts Proof.ElemFacts Proof.OffsetFacts
  Proof.GroupFacts Proof.TableFacts Proof.EdgeOperatorFacts Proof.EdgeOperatorMain Proof.NamedOperator Proof.TransposeFacts Proof.TransposeTensor Proof.TransposeNames Proof.LegFacts Proof.SignFacts Proof.ExchangeFacts
  Proof.SplitAll Proof.SplitSome Proof.RegroupFacts Proof.TwoLegs Proof.ContractSym.
Import ListNotations.

Section SplitLeg.
  Context {S R : Type} {SS : Sym S} {SL : SymLaws S} {RR : Scalar R}.
  Notation entry := (S * nat)%type.
  Variables (E : @env R) (p : tensor S R) (A c : nat) (eA ec : edge S) (ps : list (nat * edge S)) (right : bool) (a : @eo_args S) (right' : bool).
  Hypothesis W : wf_tensor p.
  Hypothesis HA : A <> c.
  Hypothesis Hnames : t_names p = if right then [A; c] else [c; A].
  Hypothesis Hedges : t_edges p = if right then [eA; ec] else [ec; eA].
  Hypothesis Hnd : NoDup (map fst ps ++ [c]).
  Hypothesis Hsort : Forall (fun x => msorted (emap (snd x))) ps.
  Hypothesis HeA : forall s d, mfind s (emap eA) = Some d -> d = merged_dim (lmaps ps) s.
  Hypothesis Hlive : forall s, mmem s (emap ec) = true -> mmem (sneg s) (emap eA) = true.
  Hypothesis Hren : a_rename a = [].
  Hypothesis Hsplit : a_split a = [(A, ps)].
  Hypothesis Hmerge : a_merge a = [].
  Hypothesis Hnew : a_new_names a = if right' then map fst ps ++ [c] else c :: map fst ps.
  Hypothesis Hcut : a_cut a = [] \/ exists cm, a_cut a = [(c, cm)].
  Hypothesis Hpar : a_apply_parity a = false.
  Hypothesis Hx1 : a_ex_split a = [].
  Hypothesis Hx2 : forall n, In n (a_ex_rev a) -> n = c.
  Hypothesis Hx3 : a_ex_rev_merge a = [].
  Hypothesis Hx4 : a_ex_merge a = [].

  Definition ec1 : edge S := cut_edge (a_cut a) c ec.
  Let pl := if right then [ps; [(c, ec1)]] else [[(c, ec1)]; ps].

  Lemma sl_edges1 : edges1 p a = if right then [eA; ec1] else [ec1; eA].
  Proof.
    unfold edges1. rewrite Hnames, Hedges. assert (X : cut_edge (a_cut a) A eA = eA).
    { unfold cut_edge. destruct Hcut as [->|[cm ->]]; [reflexivity|]. unfold mfind. cbn [find fst]. destruct (eqb A c) eqn:Q; [apply eqb_eq in Q; contradiction|reflexivity]. }
    destruct right; cbn [combine map fst snd]; rewrite X; reflexivity.
  Qed.
  Lemma sl_ec : msorted (emap ec) /\ msorted (emap eA).
  Proof.
    destruct W as [[M _ _] _ _]. change (c_edges (t_core p)) with (t_edges p) in M. rewrite Hedges in M. unfold sorted_maps, maps_of in M.
    destruct right; cbn [map] in M; inversion M as [|? ? M1 M2]; subst; inversion M2; subst; auto.
  Qed.
  Lemma sl_ec1 : msorted (emap ec1) /\ forall s d1, mfind s (emap ec1) = Some d1 -> exists d, mfind s (emap ec) = Some d /\ d1 <= d.
  Proof.
    unfold ec1, cut_edge. destruct sl_ec as [M _]. destruct (mfind c (a_cut a)) as [cm|]; [|split; [exact M|eauto]].
    cbn [emap]. split; [now apply cut_map_sorted|]. intros s d1 H. rewrite cut_map_find in H. destruct (mfind s (emap ec)) as [d|]; [|discriminate]. exists d. split; [reflexivity|].
    destruct (mfind s cm) as [nd|]; [|injection H as <-; lia]. destruct (Nat.eqb nd 0); [discriminate|]. injection H as <-. destruct (Nat.ltb nd d) eqn:Q; [apply Nat.ltb_lt in Q|]; lia.
  Qed.
  Lemma sl_find : forall n e qs, In ((n, e), qs) (combine (combine (t_names p) (edges1 p a)) pl) ->
    mfind n (a_split a) = Some qs \/ (mfind n (a_split a) = None /\ qs = [(n, e)]).
  Proof.
    intros n e qs H. rewrite sl_edges1, Hnames in H. unfold pl in H. rewrite Hsplit.
    assert (X : mfind c [(A, ps)] = None). { unfold mfind. cbn [find fst]. destruct (eqb c A) eqn:Q; [apply eqb_eq in Q; congruence|reflexivity]. }
    assert (Y : mfind A [(A, ps)] = Some ps) by (unfold mfind; cbn [find fst]; now rewrite eqb_refl).
    destruct right; cbn [combine] in H; destruct H as [H|[H|[]]]; injection H as <- <- <-; auto.
  Qed.
  Lemma sl_perm : Permutation (map fst (concat pl)) (a_new_names a).
  Proof.
    rewrite Hnew. assert (X : map fst (concat pl) = if right then map fst ps ++ [c] else c :: map fst ps).
    { unfold pl. destruct right; cbn [concat]; rewrite ?app_nil_r; [now rewrite map_app|reflexivity]. }
    rewrite X. destruct right, right'; try apply Permutation_refl; [apply Permutation_sym|]; apply Permutation_cons_append.
  Qed.
  Lemma sl_names : map fst (concat pl) = if right then map fst ps ++ [c] else c :: map fst ps.
  Proof. unfold pl. destruct right; cbn [concat]; rewrite ?app_nil_r; [now rewrite map_app|reflexivity]. Qed.
  Lemma sl_nodup : NoDup (map fst (concat pl)).
  Proof. rewrite sl_names. destruct right; [exact Hnd|]. eapply Permutation_NoDup; [|exact Hnd]. apply Permutation_sym, Permutation_cons_append. Qed.
  Lemma sl_sorts : forall n qs, mfind n (a_split a) = Some qs -> Forall (fun x => msorted (emap (snd x))) qs.
  Proof. intros n qs H. rewrite Hsplit in H. unfold mfind in H. cbn [find fst] in H. destruct (eqb n A); [injection H as <-; exact Hsort|discriminate]. Qed.
  Lemma dims_one : forall (m : list entry) k ds, dims_of [m] k = Some ds -> exists s d, k = [s] /\ mfind s m = Some d.
  Proof.
    intros m [|s [|s' k]] ds H; cbn [dims_of] in H; try discriminate; destruct (mfind s m) as [d|] eqn:Q; try discriminate; try (destruct (dims_of [] (s' :: k)); discriminate). eauto.
  Qed.
  (** a charge of the cut leg is matched *)
  Lemma sl_match : forall s d1, mfind s (emap ec1) = Some d1 -> mfind (sneg s) (emap eA) = Some (merged_dim (lmaps ps) (sneg s)).
  Proof.
    intros s d1 H. destruct sl_ec1 as [_ X]. destruct (X s d1 H) as [d [Y _]]. assert (Z : mmem (sneg s) (emap eA) = true) by (apply Hlive; unfold mmem; now rewrite Y).
    unfold mmem in Z. destruct (mfind (sneg s) (emap eA)) as [d'|] eqn:Q; [|discriminate]. now rewrite (HeA _ _ Q).
  Qed.
  Lemma sl_opp : forall x y : S, sadd x y = szero -> x = sneg y.
  Proof. intros x y H. apply sadd_eq_0. rewrite sadd_comm. exact H. Qed.
  Lemma sl_fit : forall gks, Forall2 (fun l k => exists ds, dims_of (lmaps l) k = Some ds) pl gks -> ssum (concat gks) = szero ->
    (forall l e k, In ((l, e), k) (combine (combine pl (edges1 p a)) gks) -> kp l e (ssum k) = true) ->
    Forall2 (fun lk e => exists d, mfind (ssum (snd lk)) (emap e) = Some d /\ merged_dim (lmaps (fst lk)) (ssum (snd lk)) <= d) (combine pl gks) (t_edges p).
  Proof.
    intros gks F Hz _. rewrite Hedges. unfold pl in *.
    assert (K : forall k1 k2, (exists ds, dims_of (lmaps ps) k1 = Some ds) -> (exists ds, dims_of (lmaps [(c, ec1)]) k2 = Some ds) -> sadd (ssum k1) (ssum k2) = szero ->
       (exists d, mfind (ssum k1) (emap eA) = Some d /\ merged_dim (lmaps ps) (ssum k1) <= d) /\
       (exists d, mfind (ssum k2) (emap ec) = Some d /\ merged_dim (lmaps [(c, ec1)]) (ssum k2) <= d)).
    { intros k1 k2 _ [ds H2] H. cbn [lmaps map snd] in *. apply dims_one in H2 as [s [d1 [-> H2]]]. rewrite ssum_one in *. apply sl_opp in H. rewrite H. rewrite (sl_match s d1 H2). split; [eauto|].
      destruct sl_ec1 as [M X]. destruct (X s d1 H2) as [d [Y Z]]. exists d. split; [exact Y|]. rewrite (one_dim _ _ M), H2. exact Z. }
    destruct right.
    - inversion F as [|? k1 ? ? F1 F2]; subst. inversion F2 as [|? k2 ? ? F3 F4]; subst. inversion F4; subst. cbn [concat] in Hz. rewrite app_nil_r, ssum_app in Hz.
      destruct (K k1 k2 F1 F3 Hz) as [K1 K2]. cbn [combine]. constructor; [exact K1|]. constructor; [exact K2|constructor].
    - inversion F as [|? k1 ? ? F1 F2]; subst. inversion F2 as [|? k2 ? ? F3 F4]; subst. inversion F4; subst. cbn [concat] in Hz. rewrite app_nil_r, ssum_app, sadd_comm in Hz.
      destruct (K k2 k1 F3 F1 Hz) as [K1 K2]. cbn [combine]. constructor; [exact K2|]. constructor; [exact K1|constructor].
  Qed.
  Lemma sl_len : length pl = length (t_names p).
  Proof. rewrite Hnames. unfold pl. now destruct right. Qed.
  Lemma sl_ne : a_split a <> [].
  Proof. rewrite Hsplit. discriminate. Qed.

  (** edges of the result before charges without a block are removed *)
  Definition leg_r (n : nat) : edge S :=
    if Nat.eqb n c then mkEdge (xorb (is_fermi && mem_name c (a_reversed a)) (earrow ec)) (emap ec1)
    else mkEdge (xorb (is_fermi && mem_name n (a_reversed a)) (earrow eA)) (emap (edge_named ps n)).
  Lemma sl_arrow1 : earrow ec1 = earrow ec.
  Proof. unfold ec1, cut_edge. now destruct (mfind c (a_cut a)). Qed.
  Lemma sl_c_out : ~ In c (map fst ps).
  Proof. intro H. destruct (NoDup_app_inv _ _ _ Hnd) as [_ [_ X]]. apply (X c H). now left. Qed.
  Lemma sl_leg : forall n, In n (a_new_names a) -> edge_named (legs3 p a) n = leg_r n.
  Proof.
    intros n Hn. assert (L3 := ss_leg3 p pl a W sl_len Hren sl_find sl_nodup). rewrite sl_edges1 in L3.
    unfold leg_r. destruct (Nat.eqb n c) eqn:Q.
    - apply Nat.eqb_eq in Q. subst n. rewrite (L3 [(c, ec1)] ec1 c ec1); [now rewrite sl_arrow1| |now left]. unfold pl. destruct right; cbn [combine]; simpl; auto.
    - apply Nat.eqb_neq in Q. assert (Hp : In n (map fst ps)) by (rewrite Hnew in Hn; destruct right'; [apply in_app_or in Hn as [Hn|[Hn|[]]]|destruct Hn as [Hn|Hn]]; auto; congruence).
      apply in_map_iff in Hp as [[n' ex] [Hq Hp]]. cbn [fst] in Hq. subst n'. rewrite (L3 ps eA n ex); [|unfold pl; destruct right; cbn [combine]; simpl; auto|exact Hp].
      unfold edge_named. rewrite (In_mfind_nodup ps n ex); [reflexivity| |exact Hp]. now destruct (NoDup_app_inv _ _ _ Hnd).
  Qed.
  Lemma in_range_app2 : forall (m1 m2 : list (list entry)) p1 p2, in_range m1 p1 -> in_range m2 p2 -> in_range (m1 ++ m2) (p1 ++ p2).
  Proof. intros m1 m2 p1 p2 H1 H2. induction H1; [exact H2|]. cbn [app]. econstructor; eauto. Qed.

  Theorem split_leg : exists r, edge_operator E p a = Ok r /\ wf_tensor r /\ t_names r = a_new_names a /\
    t_edges r = prune_from (t_blocks r) 0 (map leg_r (a_new_names a)) /\
    map fst (t_blocks r) = map fst (block_list (map (fun n => emap (leg_r n)) (a_new_names a))) /\
    (forall pt, valid_pt (t_core r) pt <-> in_range (map (fun n => emap (leg_r n)) (a_new_names a)) pt /\ ssum (map fst pt) = szero) /\
    forall pos, (forall n, In n (a_new_names a) -> mfind n pos <> None) -> in_range (lmaps ps) (map (coord pos) (map fst ps)) -> in_range [emap ec1] [coord pos c] ->
      total (map (coord pos) (map fst ps)) = sneg (fst (coord pos c)) ->
      exists v, elem (t_core p) (let x := fuse (lmaps ps) (map (coord pos) (map fst ps)) in if right then [x; coord pos c] else [coord pos c; x]) = Some v /\
        const_at r pos = Ok (if xorb (xorb right right') (mem_name c (a_reversed a) && mem_name c (a_ex_rev a)) && sodd (fst (coord pos c)) then ropp v else v).
  Proof.
    destruct (split_some E p pl a W sl_len Hren Hmerge sl_ne sl_find sl_perm sl_nodup sl_sorts sl_fit) as [r [re [H1 [H2 [H3 [H4 [H5 [H6 H7]]]]]]]].
    assert (Hre : re = map leg_r (a_new_names a)) by (rewrite H4; apply map_ext_in; exact sl_leg). clear H4. subst re.
    assert (Hm : maps_of (map leg_r (a_new_names a)) = map (fun n => emap (leg_r n)) (a_new_names a)) by (unfold maps_of; now rewrite map_map).
    rewrite Hm in H6.
    assert (Hs : sorted_maps (map (fun n => emap (leg_r n)) (a_new_names a))).
    { apply Forall_forall. intros m Hin. apply in_map_iff in Hin as [n [<- Hn]]. unfold leg_r. destruct (Nat.eqb n c) eqn:Q; cbn [emap]; [apply sl_ec1|]. apply Nat.eqb_neq in Q.
      assert (Hp : In n (map fst ps)) by (rewrite Hnew in Hn; destruct right'; [apply in_app_or in Hn as [Hn|[Hn|[]]]|destruct Hn as [Hn|Hn]]; auto; congruence).
      apply in_map_iff in Hp as [[n' ex] [Hq Hp]]. cbn [fst] in Hq. subst n'. unfold edge_named. rewrite (In_mfind_nodup ps n ex); [|now destruct (NoDup_app_inv _ _ _ Hnd)|exact Hp].
      rewrite Forall_forall in Hsort. exact (Hsort _ Hp). }
    exists r. do 5 (split; [assumption|]). split.
    { intro pt. unfold valid_pt. change (c_edges (t_core r)) with (t_edges r). rewrite H5. split; intros [X1 X2]; (split; [|exact X2]).
      - apply prune_range_inv in X1. now rewrite Hm in X1.
      - apply prune_range; [now rewrite Hm| |now rewrite Hm]. rewrite H6. apply in_range_dims in X1 as [ds [X1 _]]; [|exact Hs].
        apply in_map_iff. exists (map fst pt, prod ds). split; [reflexivity|]. apply in_block_list. split; [|exact X2]. apply dims_of_choice; eauto. }
    intros pos Ha Hr Hc Ht.
    specialize (H7 pos (map (coord pos) (map fst (concat pl)))).
    assert (Has : forall l, (forall n, In n l -> mfind n pos <> None) -> assigns pos l (map (coord pos) l)).
    { intros l Hl. unfold assigns. rewrite map_map. apply map_ext_in. intros n Hn. unfold coord. specialize (Hl n Hn). destruct (mfind n pos); congruence. }
    destruct H7 as [V1 [V2 _]].
    { apply Has. intros n Hn. apply Ha. eapply Permutation_in; [exact sl_perm|exact Hn]. }
    { unfold pl. destruct right; cbn [concat map]; rewrite ?app_nil_r; [rewrite map_app, map_app|cbn [app map fst]]; [now apply in_range_app2|].
      change (in_range ([emap ec1] ++ lmaps ps) ([coord pos c] ++ map (coord pos) (map fst ps))). now apply in_range_app2. }
    { unfold total in Ht. rewrite sl_names. destruct right; [rewrite !map_app, ssum_app|cbn [map]; change (fst (coord pos c) :: map fst (map (coord pos) (map fst ps))) with ([fst (coord pos c)] ++ map fst (map (coord pos) (map fst ps))); rewrite ssum_app];
      cbn [map]; rewrite ssum_one, Ht; [rewrite sadd_comm|]; apply sadd_neg_r. }
    destruct V2 as [V2 [v [V3 V4]]].
    { apply forallb_forall. intros [l e] Hin. cbn [fst snd]. unfold kp. destruct (Nat.leb (length l) 1) eqn:Q; [reflexivity|].
      rewrite sl_edges1 in Hin. unfold pl in Hin. assert (X : l = ps /\ e = eA).
      { destruct right; cbn [combine] in Hin; destruct Hin as [H|[H|[]]]; injection H as <- <-; auto; cbn in Q; discriminate. }
      destruct X as [-> ->]. rewrite Ht. destruct (coord pos c) as [s i] eqn:Qc. inversion Hc as [|m ms s' i' d pt0 D1 D2 D3]; subst. cbn [fst].
      apply (In_mfind_nodup _ _ _ ) in D1; [|apply msorted_nodup; apply sl_ec1]. unfold mmem. now rewrite (sl_match _ _ D1). }
    assert (Hsrc : map (fun l => fuse (lmaps l) (map (coord pos) (map fst l))) pl = let x := fuse (lmaps ps) (map (coord pos) (map fst ps)) in if right then [x; coord pos c] else [coord pos c; x]).
    { unfold pl. destruct right; cbn [map fst snd lmaps]; now rewrite fuse_one. }
    rewrite Hsrc in V3. exists v. split; [exact V3|].
    destruct (const_at_elem r pos (map (coord pos) (a_new_names a)) H2) as [v' [C1 C2]]; [rewrite H3; apply Has; exact Ha|exact V1|].
    rewrite C2. rewrite V4 in C1. injection C1 as <-. f_equal. unfold signed.
    rewrite (ss_sign p pl a W sl_len Hren Hmerge sl_find Hpar Hx1 Hx3 Hx4 pos). 
    assert (Hoc : leg_odd pos c = sodd (fst (coord pos c))).
    { unfold leg_odd, coord. assert (X : mfind c pos <> None) by (apply Ha; rewrite Hnew; destruct right'; [apply in_or_app; right|]; now left). destruct (mfind c pos) as [[s i]|]; [reflexivity|congruence]. }
    assert (Hops : par (leg_odd pos) (map fst ps) = sodd (fst (coord pos c))).
    { rewrite <- odd_total; [rewrite Ht; apply sodd_neg|]. intros n Hn. apply Ha. rewrite Hnew. destruct right'; [apply in_or_app; now left|now right]. }
    assert (P1 : Nat.odd (exchanged_odd (leg_odd pos) (map fst (concat pl)) (a_new_names a)) = xorb right right' && sodd (fst (coord pos c))).
    { rewrite sl_names, Hnew. destruct right, right'; cbn [xorb andb].
      - rewrite exchanged_self; [reflexivity|exact Hnd].
      - change (c :: map fst ps) with ([c] ++ map fst ps). rewrite exchange_groups by exact Hnd. rewrite Hops. unfold par. cbn [fold_right]. rewrite Hoc, xorb_false_r. apply andb_diag.
      - change (c :: map fst ps) with ([c] ++ map fst ps). rewrite exchange_groups.
        + rewrite Hops. unfold par. cbn [fold_right]. rewrite Hoc, xorb_false_r. apply andb_diag.
        + eapply Permutation_NoDup; [|exact Hnd]. apply Permutation_app_comm.
      - rewrite exchanged_self; [reflexivity|]. eapply Permutation_NoDup; [|exact Hnd]. apply Permutation_sym, Permutation_cons_append. }
    assert (P2 : par (fun n => mem_name n (a_reversed a) && mem_name n (a_ex_rev a) && leg_odd pos n) (map fst (concat pl)) = mem_name c (a_reversed a) && mem_name c (a_ex_rev a) && sodd (fst (coord pos c))).
    { assert (Z : par (fun n => mem_name n (a_reversed a) && mem_name n (a_ex_rev a) && leg_odd pos n) (map fst ps) = false).
      { apply par_false. intros n Hn. destruct (mem_name n (a_ex_rev a)) eqn:Q; [|now rewrite andb_false_r]. apply mem_name_In in Q. apply Hx2 in Q. subst n. now apply sl_c_out in Hn. }
      rewrite sl_names. destruct right; [rewrite par_app|change (c :: map fst ps) with ([c] ++ map fst ps); rewrite par_app]; rewrite Z; unfold par; cbn [fold_right]; rewrite Hoc, ?xorb_false_r, ?xorb_false_l; reflexivity. }
    rewrite P1, P2. now destruct (xorb right right'), (mem_name c (a_reversed a) && mem_name c (a_ex_rev a)), (sodd (fst (coord pos c))).
  Qed.
End SplitLeg.
