(** Trace of bosonic tensors. *)
From Coq Require Import String List Bool Arith Lia Sorted Permutation.
From Verif Require Import Base.Outcome Base.SMap Model.Symmetry Model.Edge Model.Core Model.Transpose Model.EdgeOperator Model.Elementwise Model.Contract Model.Trace
  Spec.Blocks Spec.Fuse Spec.Sign Spec.Relabel Spec.Contract Proof.SymmetryFacts Proof.LoopFacts Proof.CoreFacts Proof.ConstructFacts Proof.ElemFacts Proof.OffsetFacts
  Proof.GroupFacts Proof.CopyLoopFacts Proof.TableFacts Proof.EdgeOperatorFacts Proof.EdgeOperatorMain Proof.NamedOperator Proof.TransposeFacts Proof.TransposeTensor Proof.TransposeNames Proof.LegFacts Proof.ScalarOpFacts
  Proof.SumFacts Proof.GemmFacts Proof.RegroupFacts Proof.ContractNames Proof.ContractPlain Proof.TwoLegs Proof.SplitAll Proof.ContractSym Proof.TraceWalk.
Import ListNotations.

Local Notation tlegs t := (combine (t_names t) (t_edges t)).

Section Lines.
  Context {S R : Type} {SS : Sym S} {SL : SymLaws S} {RR : Scalar R}.
  Hypothesis EA : exact_arithmetic R.

  Lemma add_line_from : forall (source : list R) base dest k, base + k + length dest <= length source ->
    exists d, mapM (fun jx => bind (get_or_ub (nth_error source (base + fst jx))) (fun v => Ok (radd (snd jx) v))) (combine (seq k (length dest)) dest) = Ok d /\
      length d = length dest /\ forall j, j < length dest -> nth j d rzero = radd (nth j dest rzero) (nth (base + k + j) source rzero).
  Proof.
    intros source base dest. induction dest as [|x dest IH]; intros k H; [exists []; repeat split; auto; cbn [length]; lia|]. cbn [length seq combine mapM fst snd] in *.
    destruct (nth_error source (base + k)) as [v|] eqn:Ev; [|apply nth_error_None in Ev; lia]. cbn [get_or_ub bind].
    destruct (IH (Datatypes.S k)) as [d [D1 [D2 D3]]]; [lia|]. rewrite D1. cbn [bind]. exists (radd x v :: d). split; [reflexivity|]. split; [cbn [length]; lia|].
    intros [|j] Hj; cbn [nth].
    - rewrite Nat.add_0_r. f_equal. symmetry. now apply nth_error_nth.
    - rewrite D3 by lia. f_equal. f_equal. lia.
  Qed.
  Lemma add_line_ok : forall (source : list R) base dest, base + length dest <= length source ->
    exists d, add_line source base dest = Ok d /\ length d = length dest /\ forall j, j < length dest -> nth j d rzero = radd (nth j dest rzero) (nth (base + j) source rzero).
  Proof. intros source base dest H. destruct (add_line_from source base dest 0) as [d [D1 [D2 D3]]]; [lia|]. exists d. split; [exact D1|]. split; [exact D2|]. intros j Hj. rewrite (D3 j Hj). now rewrite Nat.add_0_r. Qed.

  Lemma add_lines_ok : forall (source : list R) (base : nat -> nat) l L dest, length dest = L -> (forall i, In i l -> base i + L <= length source) ->
    exists d, foldM (fun dest i => add_line source (base i) dest) l dest = Ok d /\ length d = L /\
      forall j, j < L -> nth j d rzero = radd (nth j dest rzero) (rsum (map (fun i => nth (base i + j) source rzero) l)).
  Proof.
    intros source base l L. induction l as [|i l IH]; intros dest HL H.
    - exists dest. split; [reflexivity|]. split; [exact HL|]. intros j Hj. cbn [map rsum fold_right]. rewrite (ea_add_comm _ EA). now rewrite (ea_add_0 _ EA).
    - destruct (add_line_ok source (base i) dest) as [d1 [A1 [A2 A3]]]; [rewrite HL; apply H; now left|].
      destruct (IH d1) as [d2 [B1 [B2 B3]]]; [lia|intros; apply H; now right|]. exists d2. split; [cbn [foldM]; now rewrite A1|]. split; [exact B2|].
      intros j Hj. rewrite (B3 j Hj), A3 by lia. cbn [map]. unfold rsum at 2. cbn [fold_right]. fold (rsum (map (fun i0 => nth (base i0 + j) source rzero) l)).
      symmetry. apply (ea_add_assoc _ EA).
  Qed.

  Definition diagonal (source : list R) (d L j i : nat) : R := nth ((i * d + i) * L + j) source rzero.

  Lemma foldM_length_ext : forall (l : list nat) (L : nat) (f g : list R -> nat -> res (list R)) dest, length dest = L ->
    (forall x i, length x = L -> In i l -> f x i = g x i) -> (forall x i y, length x = L -> g x i = Ok y -> length y = L) -> foldM f l dest = foldM g l dest.
  Proof.
    induction l as [|i l IH]; intros L f g dest HL H1 H2; [reflexivity|]. cbn [foldM]. rewrite (H1 dest i HL) by now left. destruct (g dest i) as [y| | |] eqn:Eg; cbn [bind]; auto.
    apply (IH L); [eapply H2; eauto|intros; apply H1; simpl; auto|exact H2].
  Qed.
  Lemma add_line_length : forall (source : list R) base dest y, add_line source base dest = Ok y -> length y = length dest.
  Proof.
    intros source base dest y. unfold add_line. generalize 0 as k. revert y. induction dest as [|x dest IH]; intros y k H; cbn [length seq combine mapM] in H; [injection H as <-; reflexivity|].
    cbn [fst snd] in H. destruct (nth_error source (base + k)); cbn [get_or_ub bind] in H; [|discriminate]. destruct (mapM _ _) as [z| | |] eqn:Ez; cbn [bind] in H; try discriminate. injection H as <-.
    cbn [length]. f_equal. eapply IH. exact Ez.
  Qed.

  Lemma add_block_ok : forall (merged : tensor S R) s d L dest source, mfind [s; sneg s; szero] (t_blocks merged) = Some source -> length source = d * d * L -> length dest = L ->
    exists dest', add_block merged dest (s, d) = Ok dest' /\ length dest' = L /\
      forall j, j < L -> nth j dest' rzero = radd (nth j dest rzero) (rsum (map (diagonal source d L j) (seq 0 d))).
  Proof.
    intros merged s d L dest source Hs HL HD. unfold add_block. rewrite Hs. cbn [at_or_throw bind].
    destruct (add_lines_ok source (fun i => (d + 1) * i * L) (seq 0 d) L dest HD) as [d' [A1 [A2 A3]]].
    { intros i Hi. apply in_seq in Hi. rewrite HL. assert (Hq : (d + 1) * i + 1 <= d * d) by nia. nia. }
    exists d'. split.
    - rewrite <- A1. apply (foldM_length_ext _ L); [exact HD|intros x i Hx _; now rewrite Hx|]. intros x i y Hx Hy. rewrite (add_line_length _ _ _ _ Hy). exact Hx.
    - split; [exact A2|]. intros j Hj. rewrite (A3 j Hj). f_equal. apply rsum_ext. intros i _. unfold diagonal. f_equal. lia.
  Qed.

  Definition flat (m : list (S * nat)) : list (S * nat) := flat_map (fun sd => map (pair (fst sd)) (seq 0 (snd sd))) m.
  Lemma in_flat : forall m s i, msorted m -> In (s, i) (flat m) <-> exists d, mfind s m = Some d /\ i < d.
  Proof.
    intros m s i Hm. unfold flat. rewrite in_flat_map. split.
    - intros [[s' d] [H1 H2]]. cbn [fst snd] in H2. apply in_map_iff in H2 as [i' [E H2]]. injection E as -> ->. apply in_seq in H2. exists d. split; [now apply In_mfind|lia].
    - intros [d [H1 H2]]. exists (s, d). split; [now apply mfind_In|]. cbn [fst snd]. apply in_map_iff. exists i. split; [reflexivity|]. apply in_seq. lia.
  Qed.
  Lemma NoDup_flat : forall m, msorted m -> NoDup (flat m).
  Proof.
    intros m Hm. unfold flat. apply NoDup_flat_map.
    - apply msorted_nodup in Hm. now apply NoDup_map_inv in Hm.
    - intros [s d] _. cbn [fst snd]. apply NoDup_map_inj; [apply seq_NoDup|]. intros x y _ _ E. now injection E.
    - intros [s d] [s' d'] z H1 H2 H3 H4. cbn [fst snd] in *. apply in_map_iff in H3 as [i [<- _]]. apply in_map_iff in H4 as [i' [E _]]. injection E as -> _.
      apply (In_mfind m) in H1; [|exact Hm]. apply (In_mfind m) in H2; [|exact Hm]. congruence.
  Qed.
  Lemma add_blocks_ok : forall (merged : tensor S R) L (F : nat -> S * nat -> R) m dest, length dest = L ->
    (forall s d, In (s, d) m -> exists source, mfind [s; sneg s; szero] (t_blocks merged) = Some source /\ length source = d * d * L /\
       forall i j, i < d -> j < L -> diagonal source d L j i = F j (s, i)) ->
    exists dest', foldM (add_block merged) m dest = Ok dest' /\ length dest' = L /\
      forall j, j < L -> nth j dest' rzero = radd (nth j dest rzero) (rsum (map (F j) (flat m))).
  Proof.
    intros merged L F. induction m as [|[s d] m IH]; intros dest HL H.
    - exists dest. split; [reflexivity|]. split; [exact HL|]. intros j Hj. cbn [flat flat_map map rsum fold_right]. rewrite (ea_add_comm _ EA). now rewrite (ea_add_0 _ EA).
    - destruct (H s d (or_introl eq_refl)) as [source [X1 [X2 X3]]]. destruct (add_block_ok merged s d L dest source X1 X2 HL) as [d1 [A1 [A2 A3]]].
      destruct (IH d1 A2) as [d2 [B1 [B2 B3]]]; [intros; apply H; now right|]. exists d2. split; [cbn [foldM]; now rewrite A1|]. split; [exact B2|].
      intros j Hj. rewrite (B3 j Hj), (A3 j Hj). cbn [flat flat_map fst snd]. fold (flat m). rewrite map_app, (rsum_app EA), map_map. rewrite <- (ea_add_assoc _ EA). f_equal. f_equal.
      apply rsum_ext. intros i Hi. apply in_seq in Hi. apply X3; lia.
  Qed.
End Lines.

Section Three.
  Context {S R : Type} {SS : Sym S} {SL : SymLaws S} {RR : Scalar R}.
  Notation entry := (S * nat)%type.

  Lemma sum_three : forall s : S, ssum [s; sneg s; szero] = szero.
  Proof. intro s. unfold ssum. cbn [fold_left]. rewrite sadd_0_l, sadd_neg_r, sadd_0_l. reflexivity. Qed.
  Lemma three_keys : forall (m0 m1 m2 : list entry) s, msorted m0 -> msorted m1 -> msorted m2 -> mmem s m0 = true -> mmem (sneg s) m1 = true -> mmem szero m2 = true ->
    In [s; sneg s; szero] (map fst (block_list [m0; m1; m2])).
  Proof.
    intros m0 m1 m2 s H0 H1 H2 A B C. unfold mmem in *. destruct (mfind s m0) as [d0|] eqn:E0; [|discriminate]. destruct (mfind (sneg s) m1) as [d1|] eqn:E1; [|discriminate].
    destruct (mfind szero m2) as [d2|] eqn:E2; [|discriminate].
    apply in_map_iff. exists ([s; sneg s; szero], prod [d0; d1; d2]). split; [reflexivity|]. apply in_block_list. split; [|apply sum_three].
    apply dims_of_choice; [repeat constructor; auto|]. exists [d0; d1; d2]. cbn [dims_of]. now rewrite E0, E1, E2.
  Qed.
  Lemma three_legs : forall (r : tensor S R) (e0 e1 e2 : edge S), wf_tensor r -> msorted (emap e0) -> msorted (emap e1) -> msorted (emap e2) ->
    t_edges r = prune_from (t_blocks r) 0 [e0; e1; e2] -> map fst (t_blocks r) = map fst (block_list [emap e0; emap e1; emap e2]) ->
    emap e0 <> [] -> (forall s, mmem s (emap e0) = true -> mmem (sneg s) (emap e1) = true) -> mmem szero (emap e2) = true ->
    exists p0 p1 p2, t_edges r = [p0; p1; p2] /\ emap p0 = emap e0 /\ mfind szero (emap p2) = mfind szero (emap e2) /\
      forall s d0 d1 d2, mfind s (emap e0) = Some d0 -> mfind (sneg s) (emap e1) = Some d1 -> mfind szero (emap e2) = Some d2 ->
        exists data, mfind [s; sneg s; szero] (t_blocks r) = Some data /\ length data = d0 * d1 * d2 /\
         forall i j k, elem (t_core r) [(s, i); (sneg s, j); (szero, k)] = nth_error data ((i * d1 + j) * d2 + k).
  Proof.
    intros r e0 e1 e2 W H0 H1 H2 He Hk Hne Hp Hz. cbn [prune_from Nat.add] in He.
    assert (U : forall s, mmem s (emap e0) = true -> used_in (t_blocks r) 0 s = true /\ used_in (t_blocks r) 1 (sneg s) = true /\ used_in (t_blocks r) 2 szero = true).
    { intros s Hs. pose proof (three_keys _ _ _ s H0 H1 H2 Hs (Hp s Hs) Hz) as K. rewrite <- Hk in K. repeat split; apply used_in_true; exists [s; sneg s; szero]; auto. }
    set (p0 := mkEdge (earrow e0) (filter (fun sd => used_in (t_blocks r) 0 (fst sd)) (emap e0))) in *.
    set (p1 := mkEdge (earrow e1) (filter (fun sd => used_in (t_blocks r) 1 (fst sd)) (emap e1))) in *.
    set (p2 := mkEdge (earrow e2) (filter (fun sd => used_in (t_blocks r) 2 (fst sd)) (emap e2))) in *.
    assert (F0 : emap p0 = emap e0).
    { cbn [p0 emap]. assert (Hall : forall x, In x (emap e0) -> used_in (t_blocks r) 0 (fst x) = true).
      { intros [s d] Hin. apply U. unfold mmem. cbn [fst]. now rewrite (In_mfind _ _ _ H0 Hin). }
      clear -Hall. induction (emap e0) as [|x l IH]; [reflexivity|]. cbn [filter]. rewrite (Hall x) by now left. f_equal. apply IH. intros; apply Hall; now right. }
    assert (F1 : forall s, mmem s (emap e0) = true -> mfind (sneg s) (emap p1) = mfind (sneg s) (emap e1)).
    { intros s Hs. cbn [p1 emap]. rewrite (mfind_filter_key (emap e1) (used_in (t_blocks r) 1) (sneg s)). destruct (U s Hs) as [_ [-> _]]. reflexivity. }
    assert (F2 : mfind szero (emap p2) = mfind szero (emap e2)).
    { cbn [p2 emap]. rewrite (mfind_filter_key (emap e2) (used_in (t_blocks r) 2) szero). destruct (emap e0) as [|[s d] m] eqn:Em; [congruence|].
      destruct (U s) as [_ [_ ->]]; [|reflexivity]. unfold mmem. now rewrite (In_mfind _ _ d H0 (or_introl eq_refl)). }
    exists p0, p1, p2. split; [exact He|]. split; [exact F0|]. split; [exact F2|]. intros s d0 d1 d2 A0 A1 A2.
    assert (Hs : mmem s (emap e0) = true) by (unfold mmem; now rewrite A0).
    assert (Hd : dims_of (maps_of (c_edges (t_core r))) [s; sneg s; szero] = Some [d0; d1; d2]).
    { change (c_edges (t_core r)) with (t_edges r). rewrite He. cbn [maps_of map dims_of]. rewrite F0, A0. rewrite (F1 s Hs), A1, F2, A2. reflexivity. }
    destruct (wf_block_find (t_core r) [s; sneg s; szero] [d0; d1; d2] (wf_tcore _ W) Hd (sum_three s)) as [b [B1 B2]].
    exists b. split; [exact B1|]. split; [rewrite B2; unfold prod; cbn [fold_right]; lia|].
    intros i j k. unfold elem. cbn [map fst snd]. rewrite Hd, B1. reflexivity.
  Qed.

  Lemma nodup_single : forall A (l : list A) x, NoDup l -> (forall y, In y l <-> y = x) -> l = [x].
  Proof.
    intros A l x Hn H. destruct l as [|y l]; [exfalso; now apply (H x)|]. assert (y = x) by (apply H; now left). subst y. inversion Hn as [|? ? Hx Hl]; subst.
    destruct l as [|z l]; [reflexivity|]. exfalso. apply Hx. assert (z = x) by (apply H; simpl; auto). subst z. now left.
  Qed.
  Lemma one_block : forall (m : list entry) d, msorted m -> mfind szero m = Some d -> block_list [m] = [([szero], d)].
  Proof.
    intros m d Hm Hd. assert (Hs : sorted_maps [m]) by (repeat constructor; exact Hm). apply nodup_single.
    - apply (NoDup_map_inv fst). apply msorted_nodup. now apply block_list_sorted.
    - intros [k n]. rewrite in_block_list. split.
      + intros [Hc Hz]. apply dims_of_choice in Hc as [ds [Hd' ->]]; [|exact Hs]. destruct k as [|s [|? ?]]; cbn [dims_of] in Hd'; try discriminate; [|destruct (mfind s m); discriminate].
        rewrite ssum_one in Hz. subst s. rewrite Hd in Hd'. injection Hd' as <-. f_equal. unfold prod. cbn [fold_right]. lia.
      + intro E. injection E as -> ->. split; [|apply ssum_one]. apply dims_of_choice; [exact Hs|]. exists [d]. cbn [dims_of]. rewrite Hd. split; [reflexivity|]. unfold prod. cbn [fold_right]. lia.
  Qed.
End Three.
