(** Tensors with two legs, and tensors whose legs are brought into two groups. *)
From Coq Require Import String List Bool Arith Lia Sorted Permutation.
From Verif Require Import Base.Outcome Base.SMap Model.Symmetry Model.Edge Model.Core Model.Transpose Model.EdgeOperator Model.Contract
  Spec.Blocks Spec.Fuse Spec.Sign Spec.Relabel Spec.Contract Proof.SymmetryFacts Proof.LoopFacts Proof.CoreFacts Proof.ConstructFacts Proof.ElemFacts Proof.OffsetFacts
  Proof.GroupFacts Proof.TableFacts Proof.EdgeOperatorFacts Proof.EdgeOperatorMain Proof.NamedOperator Proof.TransposeFacts Proof.TransposeTensor Proof.TransposeNames Proof.LegFacts Proof.ScalarOpFacts
  Proof.SumFacts Proof.GemmFacts Proof.RegroupFacts Proof.ContractNames Proof.ContractPlain.
Import ListNotations.

Local Notation tlegs t := (combine (t_names t) (t_edges t)).

Section Two.
  Context {S R : Type} {SS : Sym S} {SL : SymLaws S} {RR : Scalar R}.
  Notation entry := (S * nat)%type.

  (** some charge tuple has this total *)
  Definition present (maps : list (list entry)) (s : S) : bool := existsb (fun t => eqb (total t) s) (tuples maps).
  Lemma present_iff : forall maps s, sorted_maps maps -> (present maps s = true <-> exists key ds, dims_of maps key = Some ds /\ ssum key = s).
  Proof.
    intros maps s Hs. unfold present. split.
    - intro H. apply existsb_exists in H as [t [H1 H2]]. apply eqb_eq in H2. exists (map fst t), (map snd t). split; [now apply tuple_dims|exact H2].
    - intros [key [ds [H <-]]]. now apply (tuple_exists maps key ds).
  Qed.
  Lemma present_point : forall maps pt, sorted_maps maps -> in_range maps pt -> present maps (total pt) = true.
  Proof. intros maps pt Hs H. apply in_range_dims in H as [ds [H _]]; [|exact Hs]. apply present_iff; eauto. Qed.
  Lemma merged_find : forall maps m s, merged_map maps m -> mfind s m = if present maps s then Some (merged_dim maps s) else None.
  Proof. intros maps m s [_ H]. apply H. Qed.
  Lemma merged_mem : forall maps m s, merged_map maps m -> mmem s m = present maps s.
  Proof. intros maps m s H. unfold mmem. rewrite (merged_find maps m s H). now destruct (present maps s). Qed.

  Lemma two_block_keys : forall (m0 m1 : list entry) key, msorted m0 -> msorted m1 ->
    In key (map fst (block_list [m0; m1])) <-> exists s, key = [s; sneg s] /\ mmem s m0 = true /\ mmem (sneg s) m1 = true.
  Proof.
    intros m0 m1 key H0 H1. assert (Hs : sorted_maps [m0; m1]) by (repeat constructor; auto). split.
    - intro H. apply in_map_iff in H as [[k n] [<- H]]. cbn [fst]. apply in_block_list in H as [H Hz]. apply dims_of_choice in H as [ds [Hd _]]; [|exact Hs].
      destruct k as [|s [|s' [|? ?]]]; cbn [dims_of] in Hd; try (destruct (mfind s m0); discriminate); try discriminate.
      2: { destruct (mfind s m0); [|discriminate]. destruct (mfind s' m1); discriminate. }
      unfold ssum in Hz. cbn [fold_left] in Hz. rewrite sadd_0_l in Hz. apply sadd_eq_0 in Hz. subst s'. exists s. split; [reflexivity|]. unfold mmem.
      destruct (mfind s m0); [|discriminate]. destruct (mfind (sneg s) m1); [auto|discriminate].
    - intros [s [-> [A B]]]. unfold mmem in *. destruct (mfind s m0) as [d0|] eqn:E0; [|discriminate]. destruct (mfind (sneg s) m1) as [d1|] eqn:E1; [|discriminate].
      apply in_map_iff. exists ([s; sneg s], prod [d0; d1]). split; [reflexivity|]. apply in_block_list. split.
      + apply dims_of_choice; [exact Hs|]. exists [d0; d1]. cbn [dims_of]. now rewrite E0, E1.
      + unfold ssum. cbn [fold_left]. rewrite sadd_0_l. apply sadd_neg_r.
  Qed.

  Lemma two_legs : forall (r : tensor S R) (e0 e1 : edge S), wf_tensor r -> msorted (emap e0) -> msorted (emap e1) ->
    t_edges r = prune_from (t_blocks r) 0 [e0; e1] -> map fst (t_blocks r) = map fst (block_list [emap e0; emap e1]) ->
    exists p0 p1, t_edges r = [p0; p1] /\
      (forall s, mfind s (emap p0) = if mmem (sneg s) (emap e1) then mfind s (emap e0) else None) /\
      (forall s, mfind s (emap p1) = if mmem (sneg s) (emap e0) then mfind s (emap e1) else None) /\
      (forall s d0 d1, mfind s (emap e0) = Some d0 -> mfind (sneg s) (emap e1) = Some d1 -> exists data, mfind [s; sneg s] (t_blocks r) = Some data /\ length data = d0 * d1 /\
         forall i j, elem (t_core r) [(s, i); (sneg s, j)] = nth_error data (i * d1 + j)).
  Proof.
    intros r e0 e1 W H0 H1 He Hk. cbn [prune_from] in He.
    assert (U0 : forall s, used_in (t_blocks r) 0 s = true <-> mmem s (emap e0) = true /\ mmem (sneg s) (emap e1) = true).
    { intro s. rewrite used_in_true, Hk. split.
      - intros [key [K1 K2]]. apply two_block_keys in K1 as [s' [-> K1]]; auto. injection K2 as ->. exact K1.
      - intro K. exists [s; sneg s]. split; [|reflexivity]. apply two_block_keys; auto. eauto. }
    assert (U1 : forall s, used_in (t_blocks r) 1 s = true <-> mmem s (emap e1) = true /\ mmem (sneg s) (emap e0) = true).
    { intro s. rewrite used_in_true, Hk. split.
      - intros [key [K1 K2]]. apply two_block_keys in K1 as [s' [-> [K1 K3]]]; auto. injection K2 as <-. now rewrite sneg_invol.
      - intros [K K']. exists [sneg s; s]. split; [|reflexivity]. apply two_block_keys; auto. exists (sneg s). rewrite sneg_invol. auto. }
    set (p0 := mkEdge (earrow e0) (filter (fun sd => used_in (t_blocks r) 0 (fst sd)) (emap e0))) in *.
    set (p1 := mkEdge (earrow e1) (filter (fun sd => used_in (t_blocks r) 1 (fst sd)) (emap e1))) in *.
    assert (F0 : forall s, mfind s (emap p0) = if mmem (sneg s) (emap e1) then mfind s (emap e0) else None).
    { intro s. cbn [p0 emap]. rewrite (mfind_filter_key (emap e0) (used_in (t_blocks r) 0) s). specialize (U0 s). destruct (used_in (t_blocks r) 0 s).
      - destruct U0 as [U0 _]. destruct (U0 eq_refl) as [_ ->]. reflexivity.
      - destruct (mmem (sneg s) (emap e1)); [|reflexivity]. destruct (mfind s (emap e0)) as [d|] eqn:Ed; [|reflexivity]. exfalso.
        destruct U0 as [_ U0]. assert (X : false = true) by (apply U0; unfold mmem; rewrite Ed; auto). discriminate. }
    assert (F1 : forall s, mfind s (emap p1) = if mmem (sneg s) (emap e0) then mfind s (emap e1) else None).
    { intro s. cbn [p1 emap]. rewrite (mfind_filter_key (emap e1) (used_in (t_blocks r) 1) s). specialize (U1 s). destruct (used_in (t_blocks r) 1 s).
      - destruct U1 as [U1 _]. destruct (U1 eq_refl) as [_ ->]. reflexivity.
      - destruct (mmem (sneg s) (emap e0)); [|reflexivity]. destruct (mfind s (emap e1)) as [d|] eqn:Ed; [|reflexivity]. exfalso.
        destruct U1 as [_ U1]. assert (X : false = true) by (apply U1; unfold mmem; rewrite Ed; auto). discriminate. }
    exists p0, p1. split; [exact He|]. split; [exact F0|]. split; [exact F1|]. intros s d0 d1 A0 A1.
    assert (Hd : dims_of (maps_of (c_edges (t_core r))) [s; sneg s] = Some [d0; d1]).
    { change (c_edges (t_core r)) with (t_edges r). rewrite He. cbn [maps_of map dims_of]. rewrite F0, F1, sneg_invol. unfold mmem. now rewrite A0, A1. }
    assert (Hz : ssum [s; sneg s] = szero) by (unfold ssum; cbn [fold_left]; rewrite sadd_0_l; apply sadd_neg_r).
    destruct (wf_block_find (t_core r) [s; sneg s] [d0; d1] (wf_tcore _ W) Hd Hz) as [b [B1 B2]].
    exists b. split; [exact B1|]. split; [rewrite B2; unfold prod; cbn [fold_right]; lia|].
    intros i j. unfold elem. cbn [map fst snd]. rewrite Hd, B1. reflexivity.
  Qed.

  Section Groups.
  Hypothesis Nf : @is_fermi S SS = false.
  Variables (E : @env R) (t : tensor S R).
  Hypothesis W : wf_tensor t.
  Definition mp (l : list nat) : list (list entry) := map (fun n => emap (edge_named (tlegs t) n)) l.
  Lemma mp_sorted : forall l, incl l (t_names t) -> sorted_maps (mp l).
  Proof.
    intros l Hl. unfold mp, sorted_maps. rewrite Forall_map. apply Forall_forall. intros n Hn. destruct (leg_of_name t n W (Hl n Hn)) as [e He].
    rewrite (leg_named t n e W He). exact (leg_sorted t n e W He).
  Qed.
  Lemma mp_range : forall pos pt l, assigns pos (t_names t) pt -> in_range (maps_of (t_edges t)) pt -> incl l (t_names t) -> in_range (mp l) (map (coord pos) l).
  Proof.
    intros pos pt l Ha Hr Hl. unfold mp. apply in_range_named. intros n Hn. destruct (leg_of_name t n W (Hl n Hn)) as [e He]. rewrite (leg_named t n e W He).
    exact (proj1 (leg_range t pos pt W Ha) Hr n e He).
  Qed.

  (** all legs in two groups, the free and the common ones *)
  Lemma regroup2_signed : forall (put : bool) (a : @eo_args S) fn cn fr cs, fn <> cn ->
    a_rename a = [] -> a_split a = [] -> a_cut a = [] -> a_merge a = of_list [(fn, fr); (cn, cs)] ->
    a_new_names a = (if put then [fn; cn] else [cn; fn]) -> Permutation (t_names t) (fr ++ cs) ->
    (is_fermi = true -> env_arrow E <> None \/
       forall l, In l [fr; cs] -> length l = 1 \/ exists n e, In n l /\ In (n, e) (tlegs t) /\ arrow_valid e = true) ->
    exists r ef ec, edge_operator E t a = Ok r /\ wf_tensor r /\
      nth_error (t_edges r) (if put then 0 else 1) = Some ef /\ nth_error (t_edges r) (if put then 1 else 0) = Some ec /\
      (forall s, mfind s (emap ef) = if present (mp cs) (sneg s) then if present (mp fr) s then Some (merged_dim (mp fr) s) else None else None) /\
      (forall s, mfind s (emap ec) = if present (mp fr) (sneg s) then if present (mp cs) s then Some (merged_dim (mp cs) s) else None else None) /\
      (exists e0, group_edge E t a fr e0 /\ earrow ef = earrow e0) /\ (exists e0, group_edge E t a cs e0 /\ earrow ec = earrow e0) /\
      forall s, present (mp fr) s = true -> present (mp cs) (sneg s) = true ->
        exists data, mfind (if put then [s; sneg s] else [sneg s; s]) (t_blocks r) = Some data /\ length data = merged_dim (mp fr) s * merged_dim (mp cs) (sneg s) /\
        forall pos pt, assigns pos (t_names t) pt -> in_range (maps_of (t_edges t)) pt -> total (map (coord pos) fr) = s -> total (map (coord pos) cs) = sneg s ->
          nth (at1 put (merged_dim (mp fr) s) (merged_dim (mp cs) (sneg s)) 0 (snd (joined (tlegs t) fr pos)) (snd (joined (tlegs t) cs pos))) data rzero = signed ropp (sign_number t a pos) (element t pos).
  Proof.
    intros put a fn cn fr cs Hfc Hren Hsplit Hcut Hmerge Hnew Hp Harrow.
    assert (F : forall n x, In (n, x) [(fn, fr); (cn, cs)] -> mfind n (a_merge a) = Some x).
    { intros n x H. rewrite Hmerge. apply (of_list_find nat (list nat) _ _); [|exact H]. cbn [map fst]. repeat constructor; simpl; intuition. }
    assert (Ff : mfind fn (a_merge a) = Some fr) by (apply F; simpl; auto).
    assert (Fc : mfind cn (a_merge a) = Some cs) by (apply F; simpl; auto).
    assert (G : groups a = if put then [fr; cs] else [cs; fr]).
    { unfold groups, merge_groups. rewrite Hnew. destruct put; cbn [map]; rewrite Ff, Fc; reflexivity. }
    assert (Ifr : incl fr (t_names t)) by (intros n Hn; eapply Permutation_in; [apply Permutation_sym; exact Hp|apply in_or_app; auto]).
    assert (Ics : incl cs (t_names t)) by (intros n Hn; eapply Permutation_in; [apply Permutation_sym; exact Hp|apply in_or_app; auto]).
    destruct (regroup E t a W Hren Hsplit Hcut) as [r [re [H1 [H2 [H3 [H4 [H5 [H6 [H7 H8]]]]]]]]].
    { intro Hc. rewrite Hc in Ff. discriminate. }
    { rewrite Hnew. destruct put; repeat constructor; simpl; intuition. }
    { rewrite G. destruct put; cbn [concat]; rewrite app_nil_r; [exact Hp|]. etransitivity; [exact Hp|]. apply Permutation_app_comm. }
    { intro H. rewrite G. destruct (Harrow H) as [X|X]; [now left|right]. intros l Hl. apply X. destruct put; simpl in *; tauto. }
    assert (Hel : forall pos pt, assigns pos (t_names t) pt -> in_range (maps_of (t_edges t)) pt -> total (map (coord pos) cs) = sneg (total (map (coord pos) fr)) ->
      exists v, elem (t_core r) (if put then [joined (tlegs t) fr pos; joined (tlegs t) cs pos] else [joined (tlegs t) cs pos; joined (tlegs t) fr pos]) = Some v /\ signed ropp (sign_number t a pos) (element t pos) = v).
    { intros pos pt Ha Hr Ht. assert (Hv : valid_pt (t_core t) pt).
      { split; [exact Hr|]. rewrite (assigns_coord pos _ pt Ha). transitivity (total (map (coord pos) (fr ++ cs))).
        - unfold total. apply ssum_perm. now do 2 apply Permutation_map.
        - unfold total in *. rewrite !map_app, ssum_app, Ht. apply sadd_neg_r. }
      destruct (H7 pos pt Ha Hv) as [X1 [v [X2 X3]]]. destruct (const_at_elem t pos pt W Ha Hv) as [v' [Y1 Y2]]. rewrite X2 in Y1. injection Y1 as <-.
      exists (signed ropp (sign_number t a pos) v). split; [|unfold element; now rewrite Y2]. rewrite <- X3. f_equal.
      rewrite Hnew. unfold merged_coord. destruct put; cbn [map]; rewrite Ff, Fc; reflexivity. }
    rewrite G in H4.
    assert (Gm : forall g e, group_edge E t a g e -> merged_map (mp g) (emap e)).
    { intros g e Hg. pose proof (ge_map _ _ _ _ _ Hg) as M. rewrite (rg_legs t a W Hren Hsplit Hcut) in M. exact M. }
    destruct put.
    - inversion H4 as [|? x0 ? re' Q0 H4']; subst. inversion H4' as [|? x1 ? re'' Q1 H4'']; subst. inversion H4''; subst. clear H4 H4' H4''.
      pose proof Q0 as Q0'. pose proof Q1 as Q1'. apply Gm in Q0, Q1.
      destruct (two_legs r x0 x1 H2 (proj1 Q0) (proj1 Q1) H5 H6) as [p0 [p1 [A [B [C D]]]]]. pose proof A as A'. rewrite H5 in A'. cbn [prune_from] in A'. injection A' as A0 A1. exists r, p0, p1. rewrite A.
      split; [exact H1|]. split; [exact H2|]. split; [reflexivity|]. split; [reflexivity|].
      split. { intro s. rewrite B, (merged_mem _ _ _ Q1), (merged_find _ _ _ Q0). reflexivity. }
      split. { intro s. rewrite C, (merged_mem _ _ _ Q0), (merged_find _ _ _ Q1). reflexivity. }
      split. { exists x0. split; [exact Q0'|now rewrite <- A0]. } split. { exists x1. split; [exact Q1'|now rewrite <- A1]. }
      intros s Ps Pc. destruct (D s (merged_dim (mp fr) s) (merged_dim (mp cs) (sneg s))) as [data [D1 [D2 D3]]].
      { now rewrite (merged_find _ _ _ Q0), Ps. } { now rewrite (merged_find _ _ _ Q1), Pc. }
      exists data. split; [exact D1|]. split; [exact D2|]. intros pos pt Ha Hr Tf Tc. destruct (Hel pos pt Ha Hr) as [v [V1 V2]]; [congruence|].
      unfold at1. rewrite V2. apply nth_error_nth. rewrite <- V1. rewrite Nat.mul_0_r, Nat.add_0_l. rewrite <- D3. unfold joined, fuse. cbn [fst snd]. now rewrite Tf, Tc.
    - inversion H4 as [|? x0 ? re' Q0 H4']; subst. inversion H4' as [|? x1 ? re'' Q1 H4'']; subst. inversion H4''; subst. clear H4 H4' H4''.
      pose proof Q0 as Q0'. pose proof Q1 as Q1'. apply Gm in Q0, Q1.
      destruct (two_legs r x0 x1 H2 (proj1 Q0) (proj1 Q1) H5 H6) as [p0 [p1 [A [B [C D]]]]]. pose proof A as A'. rewrite H5 in A'. cbn [prune_from] in A'. injection A' as A0 A1. exists r, p1, p0. rewrite A.
      split; [exact H1|]. split; [exact H2|]. split; [reflexivity|]. split; [reflexivity|].
      split. { intro s. rewrite C, (merged_mem _ _ _ Q0), (merged_find _ _ _ Q1). reflexivity. }
      split. { intro s. rewrite B, (merged_mem _ _ _ Q1), (merged_find _ _ _ Q0). reflexivity. }
      split. { exists x1. split; [exact Q1'|now rewrite <- A1]. } split. { exists x0. split; [exact Q0'|now rewrite <- A0]. }
      intros s Ps Pc. destruct (D (sneg s) (merged_dim (mp cs) (sneg s)) (merged_dim (mp fr) s)) as [data [D1 [D2 D3]]].
      { now rewrite (merged_find _ _ _ Q0), Pc. } { now rewrite sneg_invol, (merged_find _ _ _ Q1), Ps. }
      rewrite sneg_invol in D1, D3. exists data. split; [exact D1|]. split; [rewrite D2; lia|]. intros pos pt Ha Hr Tf Tc. destruct (Hel pos pt Ha Hr) as [v [V1 V2]]; [congruence|].
      unfold at1. rewrite V2. apply nth_error_nth. rewrite <- V1. rewrite Nat.mul_0_r, Nat.add_0_l. rewrite <- D3. unfold joined, fuse. cbn [fst snd]. now rewrite Tf, Tc.
  Qed.
  Lemma regroup2 : forall (put : bool) (a : @eo_args S) fn cn fr cs, fn <> cn ->
    a_rename a = [] -> a_split a = [] -> a_cut a = [] -> a_merge a = of_list [(fn, fr); (cn, cs)] ->
    a_new_names a = (if put then [fn; cn] else [cn; fn]) -> Permutation (t_names t) (fr ++ cs) ->
    exists r ef ec, edge_operator E t a = Ok r /\ wf_tensor r /\
      nth_error (t_edges r) (if put then 0 else 1) = Some ef /\ nth_error (t_edges r) (if put then 1 else 0) = Some ec /\
      (forall s, mfind s (emap ef) = if present (mp cs) (sneg s) then if present (mp fr) s then Some (merged_dim (mp fr) s) else None else None) /\
      (forall s, mfind s (emap ec) = if present (mp fr) (sneg s) then if present (mp cs) s then Some (merged_dim (mp cs) s) else None else None) /\
      forall s, present (mp fr) s = true -> present (mp cs) (sneg s) = true ->
        exists data, mfind (if put then [s; sneg s] else [sneg s; s]) (t_blocks r) = Some data /\ length data = merged_dim (mp fr) s * merged_dim (mp cs) (sneg s) /\
        forall pos pt, assigns pos (t_names t) pt -> in_range (maps_of (t_edges t)) pt -> total (map (coord pos) fr) = s -> total (map (coord pos) cs) = sneg s ->
          nth (at1 put (merged_dim (mp fr) s) (merged_dim (mp cs) (sneg s)) 0 (snd (joined (tlegs t) fr pos)) (snd (joined (tlegs t) cs pos))) data rzero = element t pos.
  Proof.
    intros put a fn cn fr cs Hfc Hren Hsplit Hcut Hmerge Hnew Hp.
    destruct (regroup2_signed put a fn cn fr cs Hfc Hren Hsplit Hcut Hmerge Hnew Hp) as [r [ef [ec [H1 [H2 [H3 [H4 [H5 [H6 [_ [_ H7]]]]]]]]]]].
    { intro H. rewrite Nf in H. discriminate. }
    exists r, ef, ec. do 6 (split; [assumption|]). intros s P1 P2. destruct (H7 s P1 P2) as [data [D1 [D2 D3]]]. exists data. split; [exact D1|]. split; [exact D2|].
    intros pos pt Ha Hr Tf Tc. rewrite (D3 pos pt Ha Hr Tf Tc), (sign_bose t a pos Nf). reflexivity.
  Qed.
  End Groups.
End Two.
