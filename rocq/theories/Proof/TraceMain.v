(** Trace of bosonic tensors: the theorem. *)
From Coq Require Import String List Bool Arith Lia Sorted Permutation.
From Verif Require Import Base.Outcome Base.SMap Model.Symmetry Model.Edge Model.Core Model.Transpose Model.EdgeOperator Model.Elementwise Model.Contract Model.Trace
  Spec.Blocks Spec.Fuse Spec.Sign Spec.Relabel Spec.Contract Proof.SymmetryFacts Proof.LoopFacts Proof.CoreFacts Proof.ConstructFacts Proof.ElemFacts Proof.OffsetFacts
  Proof.GroupFacts Proof.CopyLoopFacts Proof.TableFacts Proof.EdgeOperatorFacts Proof.EdgeOperatorMain Proof.NamedOperator Proof.TransposeFacts Proof.TransposeTensor Proof.TransposeNames Proof.LegFacts Proof.ScalarOpFacts
  Proof.SumFacts Proof.GemmFacts Proof.RegroupFacts Proof.ContractNames Proof.ContractPlain Proof.TwoLegs Proof.SplitAll Proof.ContractSym Proof.TraceWalk Proof.TraceSym.
Import ListNotations.

Local Notation tlegs t := (combine (t_names t) (t_edges t)).

(** positions that give the second legs the opposite coordinates of the first ones *)
Section Paired.
  Context {S : Type} {SS : Sym S} {SL : SymLaws S}.
  Notation entry := (S * nat)%type.
  Definition paired (X Y : list nat) (pt : list entry) (rest : list (nat * entry)) : list (nat * entry) := combine X pt ++ combine Y (map opposite pt) ++ rest.
  Lemma opposite_invol : forall x : entry, opposite (opposite x) = x.
  Proof. intros [s i]. unfold opposite. cbn [fst snd]. now rewrite sneg_invol. Qed.
  Lemma paired_find : forall X Y (pt : list entry) rest u a b, NoDup (X ++ Y) -> length X = length pt -> length Y = length pt -> nth_error X u = Some a -> nth_error Y u = Some b ->
    exists x, nth_error pt u = Some x /\ mfind a (paired X Y pt rest) = Some x /\ mfind b (paired X Y pt rest) = Some (opposite x).
  Proof.
    intros X Y pt rest u a b Hn L1 L2 Ha Hb. destruct (NoDup_halves _ _ _ Hn) as [N1 N2].
    destruct (found_pair X Y opposite pt u a b N1 N2 L1 L2 Ha Hb) as [x [E1 [E2 E3]]]. exists x. split; [exact E1|]. unfold paired. rewrite !mfind_app, E2. split; [reflexivity|].
    rewrite find_combine_none; [now rewrite E3|exact L1|]. intro Hc. apply (app_disjoint _ _ _ b Hn Hc). eapply nth_error_In; eauto.
  Qed.
  Lemma paired_rest : forall X Y (pt : list entry) rest n, length X = length pt -> length Y = length pt -> ~ In n (X ++ Y) -> mfind n (paired X Y pt rest) = mfind n rest.
  Proof.
    intros X Y pt rest n L1 L2 Hn. unfold paired. rewrite in_app_iff in Hn. rewrite !mfind_app, !find_combine_none; [reflexivity|now rewrite map_length|tauto|exact L1|tauto].
  Qed.
  Lemma paired_first : forall X Y (pt : list entry) rest, NoDup (X ++ Y) -> length X = length pt -> length Y = length pt -> map (coord (paired X Y pt rest)) X = pt.
  Proof.
    intros X Y pt rest Hn L1 L2. destruct (NoDup_halves _ _ _ Hn) as [N1 _]. rewrite <- (combine_coords X pt N1 L1) at 2. apply map_ext_in. intros a Ha.
    destruct (find_combine X pt a N1 L1 Ha) as [x [E _]]. unfold coord, paired. now rewrite mfind_app, E.
  Qed.
  Lemma paired_second : forall X Y (pt : list entry) rest, NoDup (X ++ Y) -> length X = length pt -> length Y = length pt -> map (coord (paired X Y pt rest)) Y = map opposite pt.
  Proof.
    intros X Y pt rest Hn L1 L2. destruct (NoDup_halves _ _ _ Hn) as [_ N2]. rewrite <- (combine_coords Y (map opposite pt) N2) at 1 by (now rewrite map_length). apply map_ext_in. intros a Ha.
    destruct (find_combine Y (map opposite pt) a N2) as [x [E _]]; [now rewrite map_length|exact Ha|]. unfold coord, paired. rewrite !mfind_app, find_combine_none, E; [reflexivity|exact L1|]. intro Hc. exact (app_disjoint _ _ _ a Hn Hc Ha).
  Qed.
End Paired.

Section Trace.
  Context {S R : Type} {SS : Sym S} {SL : SymLaws S} {RR : Scalar R}.
  Notation entry := (S * nat)%type.
  Hypothesis Nf : @is_fermi S SS = false.
  Hypothesis EA : exact_arithmetic R.
  Variables (E : @env R) (I : internal) (t : tensor S R) (pairs : list (nat * nat)).
  Hypothesis HI : NoDup [i_trace_1 I; i_trace_2 I; i_trace_3 I].
  Hypothesis W : wf_tensor t.
  Let A := map fst pairs.
  Let B := map snd pairs.
  Hypothesis Hnd : NoDup (A ++ B).
  Hypothesis Hin : incl (A ++ B) (t_names t).
  Hypothesis HM : forall a b s d, In (a, b) pairs -> In (s, d) (emap (edge_named (tlegs t) a)) <-> In (sneg s, d) (emap (edge_named (tlegs t) b)).
  Hypothesis HP : length pairs <= 1 \/ forall s : S, sneg s = s.
  Hypothesis HB : diagonal_block t pairs.
  Let free := filter (fun n => negb (mem_name n (A ++ B))) (t_names t).

  Lemma mates_opp : forall a b, mates pairs a b -> opp (emap (edge_named (tlegs t) a)) (emap (edge_named (tlegs t) b)).
  Proof.
    intros a b H. assert (Ha : In a (t_names t)) by (apply Hin; exact (mates_mentioned pairs a b H)). assert (Hb : In b (t_names t)) by (apply Hin; exact (mates_mentioned pairs b a (mates_sym pairs _ _ H))).
    split; [now apply named_sorted|]. split; [now apply named_sorted|]. intros s d. destruct H as [H|H]; [now apply HM|]. rewrite (HM b a (sneg s) d H), sneg_invol. reflexivity.
  Qed.

  Lemma pair_nth : forall a b, In (a, b) pairs -> exists u, nth_error A u = Some a /\ nth_error B u = Some b.
  Proof. intros a b H. apply In_nth_error in H as [u Hu]. exists u. unfold A, B. rewrite !nth_error_map, Hu. auto. Qed.
  Lemma len_AB : length A = length pairs /\ length B = length pairs.
  Proof. unfold A, B. now rewrite !map_length. Qed.

  (** the diagonal block gives the empty charge to the free legs *)
  Lemma free_zero : forall l1 l2, Forall2 (mates pairs) l1 l2 -> Permutation (A ++ B) (l1 ++ l2) -> Permutation (t_names t) (l1 ++ l2 ++ free) ->
    present (mp t free) szero = true /\ exists s, present (mp t l1) s = true.
  Proof.
    intros l1 l2 Hm Hp Hq. destruct HB as [key [data [K1 K2]]].
    assert (Hd : exists ds, dims_of (maps_of (t_edges t)) key = Some ds /\ ssum key = szero).
    { assert (K : In key (map fst (t_blocks t))) by (now apply (in_map fst) in K1). change (t_blocks t) with (c_blocks (t_core t)) in K.
      rewrite <- shape_keys, (wf_shape _ (wf_tcore _ W)) in K. apply in_map_iff in K as [[k n] [<- K]]. cbn [fst].
      apply in_block_list in K as [K Kz]. apply dims_of_choice in K as [ds [K _]]; [|apply W]. eauto. }
    destruct Hd as [ds [Hd Hz]]. pose proof (dims_of_length _ _ _ Hd) as [L1 L2]. unfold maps_of in L1, L2. rewrite map_length in L1, L2.
    set (pos := combine (t_names t) (combine key ds)).
    assert (LL : length (t_names t) = length (combine key ds)) by (rewrite combine_length, (wf_rank _ W); lia).
    assert (Hcc : map (coord pos) (t_names t) = combine key ds) by (apply combine_coords; [apply W|exact LL]).
    set (ch := fun n => fst (coord pos n)).
    assert (Hkk : map ch (t_names t) = key) by (unfold ch; rewrite <- (map_map (coord pos) fst), Hcc; apply combine_map_fst; lia).
    assert (Hch : forall n, In n (t_names t) -> mfind n (combine (t_names t) key) = Some (ch n)).
    { intros n Hn. rewrite <- Hkk. apply In_nth_error in Hn as [i Hi]. apply (In_mfind_nodup (combine (t_names t) (map ch (t_names t)))).
      - rewrite combine_map_fst by (now rewrite map_length). apply W.
      - eapply nth_error_In. apply combine_nth_some; [exact Hi|]. rewrite nth_error_map, Hi. reflexivity. }
    assert (Hall : forall n, In n (t_names t) -> exists d, mfind (ch n) (emap (edge_named (tlegs t) n)) = Some d).
    { assert (Hdd : dims_of (map (fun n => emap (edge_named (tlegs t) n)) (t_names t)) (map ch (t_names t)) = Some ds).
      { rewrite Hkk. rewrite <- Hd. f_equal. transitivity (maps_of (map (edge_named (tlegs t)) (t_names t))); [unfold maps_of; now rewrite map_map|]. now rewrite (legs_to_edges t W). }
      revert Hdd. generalize (tlegs t) as lg. generalize ch as c. clear. intros c lg. revert ds. induction (t_names t) as [|x l IH]; intros ds Hdd n Hn; [destruct Hn|]. cbn [map dims_of] in Hdd.
      destruct (mfind (c x) (emap (edge_named lg x))) as [d|] eqn:Ed; [|discriminate].
      destruct (dims_of _ _) as [ds'|] eqn:Eds; [|discriminate]. destruct Hn as [->|Hn]; [eauto|]. eapply IH; eauto. }
    assert (Hpres : forall l, incl l (t_names t) -> present (mp t l) (ssum (map ch l)) = true).
    { intros l Hl. apply (present_iff _ _ (mp_sorted t W l Hl)). exists (map ch l).
      assert (Hdc : exists dc, dims_of (mp t l) (map ch l) = Some dc).
      { unfold mp. clear - Hall Hl. induction l as [|x l IH]; [exists []; reflexivity|]. cbn [map dims_of]. destruct (Hall x (Hl x (or_introl eq_refl))) as [d ->].
        destruct IH as [dc ->]; [intros y Hy; apply Hl; now right|]. eauto. }
      destruct Hdc as [dc Hdc]. eauto. }
    assert (I1 : incl l1 (t_names t)) by (intros x Hx; eapply Permutation_in; [apply Permutation_sym; exact Hq|]; rewrite !in_app_iff; auto).
    assert (I2 : incl free (t_names t)) by (intros x Hx; apply filter_In in Hx; tauto).
    assert (Hmc : forall a b, mates pairs a b -> ch b = sneg (ch a)).
    { intros a b H. assert (Ha : In a (t_names t)) by (apply Hin; exact (mates_mentioned pairs a b H)). assert (Hb : In b (t_names t)) by (apply Hin; exact (mates_mentioned pairs b a (mates_sym pairs _ _ H))).
      destruct H as [H|H]; pose proof (K2 _ _ H) as K; rewrite (Hch _ Ha), (Hch _ Hb) in K; cbn [option_map] in K; injection K as K; [exact K|]. now rewrite K, sneg_invol. }
    assert (Hl2 : map ch l2 = map sneg (map ch l1)).
    { clear - Hm Hmc. induction Hm as [|a b l1 l2 H Hm IH]; [reflexivity|]. cbn [map]. f_equal; [now apply Hmc|exact IH]. }
    split; [|eauto]. replace szero with (ssum (map ch free)); [now apply Hpres|].
    rewrite <- Hkk in Hz. rewrite (ssum_perm _ _ (Permutation_map ch Hq)), !map_app, Hl2, app_assoc, !ssum_app, ssum_neg, sadd_neg_r, sadd_0_l in Hz. exact Hz.
  Qed.

  Theorem trace_sym : exists r re, trace E I t pairs = Ok r /\ wf_tensor r /\ t_names r = free /\
    maps_of re = mp t free /\ t_edges r = prune_from (t_blocks r) 0 re /\ map fst (t_blocks r) = map fst (block_list (mp t free)) /\
    forall pos pt, assigns pos free pt -> in_range (mp t free) pt -> ssum (map fst pt) = szero -> const_at r pos = Ok (trace_sum t pairs pos).
  Proof.
    destruct (walk_ok Nf t pairs (wf_nodup _ W) Hnd Hin) as [g [Hg [Hmates [Hperm Htr]]]].
    set (l1 := g_1 g) in *. set (l2 := g_2 g) in *.
    set (T1 := i_trace_1 I) in *. set (T2 := i_trace_2 I) in *. set (T3 := i_trace_3 I) in *.
    assert (Htm : forall n, mem_name n (g_traced g) = mem_name n (A ++ B)).
    { intro n. destruct (mem_name n (A ++ B)) eqn:Em.
      - apply mem_name_In. apply Htr. now apply mem_name_In in Em. - apply mem_name_false. rewrite Htr. now apply mem_name_false in Em. }
    assert (Ifr : incl free (t_names t)) by (intros x Hx; apply filter_In in Hx; tauto).
    assert (Hq : Permutation (t_names t) (l1 ++ l2 ++ free)).
    { rewrite app_assoc. etransitivity; [apply (two_groups pairs HP t (l1 ++ l2) (A ++ B) W Hperm Hin Hnd)|]. apply Permutation_app_comm. }
    assert (I1 : incl l1 (t_names t)) by (intros x Hx; eapply Permutation_in; [apply Permutation_sym; exact Hq|]; rewrite !in_app_iff; auto).
    assert (I2 : incl l2 (t_names t)) by (intros x Hx; eapply Permutation_in; [apply Permutation_sym; exact Hq|]; rewrite !in_app_iff; auto).
    destruct (free_zero l1 l2 Hmates Hperm Hq) as [Hz0 [s0 Hs0]].
    set (mf := mp t free) in *. set (m1 := mp t l1) in *. set (m2 := mp t l2).
    assert (Sf : sorted_maps mf) by (now apply mp_sorted). assert (S1 : sorted_maps m1) by (now apply mp_sorted). assert (S2 : sorted_maps m2) by (now apply mp_sorted).
    assert (Hopp : Forall2 opp m1 m2).
    { unfold m1, m2, mp. apply Forall2_map_l, Forall2_map_r. clear - Hmates HM Hin W SL. induction Hmates; constructor; auto. now apply mates_opp. }
    assert (Lp : length l1 = length pairs).
    { pose proof (Permutation_length Hperm) as HL. pose proof (Forall2_len _ _ _ _ _ Hmates) as HL2. rewrite !app_length, !map_length in HL. lia. }
    destruct (match_facts m1 m2 Hopp) as [K1 [K2 K3]].
    { destruct HP as [HL|HZ]; [left|right; exact HZ]. unfold m1, mp. rewrite map_length. lia. }
    set (a1 := mkArgs [] [] [] (of_list [(T1, l1); (T2, l2); (T3, free)]) [T1; T2; T3] false [] [] [] [T1] [] : @eo_args S).
    assert (F1 : forall n x, In (n, x) [(T1, l1); (T2, l2); (T3, free)] -> mfind n (a_merge a1) = Some x).
    { intros n x H. cbn [a1 a_merge]. apply (of_list_find nat (list nat) _ _); [exact HI|exact H]. }
    assert (Ff1 : mfind T1 (a_merge a1) = Some l1) by (apply F1; simpl; auto). assert (Ff2 : mfind T2 (a_merge a1) = Some l2) by (apply F1; simpl; auto). assert (Ff3 : mfind T3 (a_merge a1) = Some free) by (apply F1; simpl; auto).
    assert (G : groups a1 = [l1; l2; free]).
    { unfold groups, merge_groups. change (a_new_names a1) with [T1; T2; T3]. cbn [map]. now rewrite Ff1, Ff2, Ff3. }
    destruct (regroup E t a1 W eq_refl eq_refl eq_refl) as [m [re [X1 [X2 [X3 [X4 [X5 [X6 [X7 _]]]]]]]]].
    { intro Hc. rewrite Hc in Ff1. discriminate. } { exact HI. }
    { rewrite G. cbn [concat]. now rewrite app_nil_r. } { intro H. rewrite Nf in H. discriminate. }
    rewrite G in X4. inversion X4 as [|? x0 ? re' Q0 X4']; subst. inversion X4' as [|? x1 ? re'' Q1 X4'']; subst. inversion X4'' as [|? x2 ? re3 Q2 X4''']; subst. inversion X4'''; subst. clear X4 X4' X4'' X4'''.
    assert (Gm : forall gr e, group_edge E t a1 gr e -> merged_map (mp t gr) (emap e)).
    { intros gr e He. pose proof (ge_map _ _ _ _ _ He) as M. rewrite (rg_legs t a1 W eq_refl eq_refl eq_refl) in M. exact M. }
    apply Gm in Q0, Q1, Q2. fold m1 in Q0. fold m2 in Q1. fold mf in Q2.
    destruct (three_legs m x0 x1 x2 X2 (proj1 Q0) (proj1 Q1) (proj1 Q2) X5 X6) as [p0 [p1 [p2 [Y1 [Y2 [Y3 Y4]]]]]].
    { intro Hc. pose proof (merged_find _ _ s0 Q0) as Hf. rewrite Hs0, Hc in Hf. discriminate. }
    { intros s Hs. rewrite (merged_mem _ _ _ Q0) in Hs. rewrite (merged_mem _ _ _ Q1), K1. exact Hs. }
    { rewrite (merged_mem _ _ _ Q2). exact Hz0. }
    set (L := merged_dim mf szero).
    assert (Fz : mfind szero (emap x2) = Some L) by (rewrite (merged_find _ _ _ Q2), Hz0; reflexivity). rewrite Fz in Y3.
    assert (Blk : forall s d, In (s, d) (emap p0) -> d = merged_dim m1 s /\ present m1 s = true /\ exists data, mfind [s; sneg s; szero] (t_blocks m) = Some data /\ length data = d * d * L /\
      forall i j k, elem (t_core m) [(s, i); (sneg s, j); (szero, k)] = nth_error data ((i * d + j) * L + k)).
    { intros s d Hsd. rewrite Y2 in Hsd. apply (In_mfind (emap x0)) in Hsd; [|apply Q0]. pose proof Hsd as Hsd'. rewrite (merged_find _ _ _ Q0) in Hsd'. destruct (present m1 s) eqn:Ep; [|discriminate]. injection Hsd' as <-.
      split; [reflexivity|]. split; [reflexivity|].
      destruct (Y4 s (merged_dim m1 s) (merged_dim m1 s) L Hsd) as [data [D1 [D2 D3]]]; [|exact Fz|eauto]. rewrite (merged_find _ _ _ Q1), K1, Ep, K2. reflexivity. }
    assert (Sp2 : msorted (emap p2)).
    { pose proof (wf_maps _ (wf_tcore _ X2)) as Hs. unfold sorted_maps, maps_of in Hs. rewrite Forall_map, Forall_forall in Hs. apply Hs. change (c_edges (t_core m)) with (t_edges m). rewrite Y1. simpl. auto. }
    (* the traced tensor *)
    destruct (make_tensor_ok (env_junk E) [T3] [p2] false) as [tr [Z1 [Z2 [Z3 [Z4 Z5]]]]].
    { repeat constructor. exact Sp2. } { repeat constructor; auto. } { reflexivity. }
    rewrite andb_false_r in Z5. cbn [maps_of map] in Z4, Z5. rewrite (one_block (emap p2) L Sp2 Y3) in Z4, Z5. unfold junk_blocks in Z4, Z5. cbn [map fst snd] in Z4, Z5.
    set (q := mkEdge (earrow p2) (filter (fun sd : S * nat => used_in [([szero], repeat (env_junk E) L)] 0 (fst sd)) (emap p2))) in *.
    assert (Z5' : t_edges tr = [q]) by exact Z5. clear Z5.
    assert (Fq : forall s, mfind s (emap q) = if eqb s szero then Some L else None).
    { intro s. cbn [q emap]. rewrite (mfind_filter_key (emap p2) (used_in [([szero], repeat (env_junk E) L)] 0) s).
      assert (Hu : used_in [([szero], repeat (env_junk E) L)] 0 s = eqb s szero).
      { destruct (eqb s szero) eqn:Es.
        - apply eqb_eq in Es. subst s. apply used_in_true. exists [szero]. split; [now left|reflexivity].
        - destruct (used_in _ 0 s) eqn:Eu; [|reflexivity]. apply used_in_true in Eu as [k [[<-|[]] Ek]]. cbn [nth_error fst] in Ek. injection Ek as Ek. rewrite <- Ek, eqb_refl in Es. discriminate. }
      rewrite Hu. destruct (eqb s szero) eqn:Es; [|reflexivity]. apply eqb_eq in Es. subst s. exact Y3. }
    set (F := fun (j : nat) (x : S * nat) => match mfind [fst x; sneg (fst x); szero] (t_blocks m) with Some source => diagonal source (merged_dim m1 (fst x)) L j (snd x) | None => rzero end).
    destruct (add_blocks_ok EA m L F (emap p0) (map (fun _ : R => rzero) (repeat (env_junk E) L))) as [dest [D1 [D2 D3]]].
    { now rewrite map_length, repeat_length. }
    { intros s d Hsd. destruct (Blk s d Hsd) as [-> [_ [data [B1 [B2 _]]]]]. exists data. split; [exact B1|]. split; [exact B2|]. intros i j Hi Hj. unfold F. cbn [fst snd]. now rewrite B1. }
    assert (D3' : forall j, j < L -> nth j dest rzero = rsum (map (F j) (flat (emap p0)))).
    { intros j Hj. rewrite (D3 j Hj). replace (nth j (map (fun _ : R => rzero) (repeat (env_junk E) L)) rzero) with (@rzero R RR); [apply (ea_add_0 _ EA)|]. clear. generalize (repeat (env_junk E) L). intro l. revert j. induction l; intros [|j]; cbn; auto. }
    set (p' := mkTensor (t_names tr) (mkCore (t_edges tr) [([szero], dest)])).
    assert (Wp : wf_tensor p').
    { destruct Z2 as [A1 A2 A3]. constructor; [|exact A2|exact A3]. apply (shape_wf (t_core tr)); [exact A1|reflexivity|]. unfold shape. change (c_blocks (t_core tr)) with (t_blocks tr). rewrite Z4. cbn [p' t_core c_blocks map fst snd]. now rewrite D2, repeat_length. }
    set (fl := map (fun ne : nat * edge S => (fst ne, mkEdge false (emap (snd ne)))) (filter (fun ne => negb (mem_name (fst ne) (A ++ B))) (tlegs t))).
    assert (Nf1 : map fst fl = free) by (unfold fl; rewrite map_map; cbn [fst]; apply (free_legs_fst t (fun n => negb (mem_name n (A ++ B))) W)).
    assert (Mf1 : lmaps fl = mf).
    { unfold lmaps, fl. rewrite map_map. cbn [snd emap]. rewrite <- (map_map snd emap). rewrite (free_legs t (fun n => negb (mem_name n (A ++ B))) W), map_map. reflexivity. }
    set (a3 := mkArgs [] (of_list [(T3, fl)]) [] [] free false [] [] [] [] [] : @eo_args S).
    assert (F3 : mfind T3 (a_split a3) = Some fl) by (cbn [a3 a_split]; apply (of_list_find nat (list (nat * edge S)) _ _); [repeat constructor; auto|now left]).
    destruct (split_all Nf E p' [fl] a3 Wp) as [r [re2 [R1 [R2 [R3 [R4 [R5 [R6 R7]]]]]]]].
    { cbn [t_names p']. now rewrite Z3. } { reflexivity. } { reflexivity. } { reflexivity. }
    { intro Hc. rewrite Hc in F3. discriminate. }
    { intros n ps Hnp. cbn [t_names p'] in Hnp. rewrite Z3 in Hnp. destruct Hnp as [Hnp|[]]. injection Hnp as <- <-. exact F3. }
    { intros n ps H. assert (Hk : In n (map fst (a_split a3))) by (apply mfind_In in H; apply in_map_iff; exists (n, ps); auto).
      cbn [a3 a_split] in Hk. apply (proj1 (of_list_keys nat (list (nat * edge S)) _ _ _ _)) in Hk. cbn [map fst In] in Hk. destruct Hk as [<-|[]]. rewrite F3 in H. injection H as <-. now left. }
    { cbn [a3 a_new_names concat]. now rewrite app_nil_r, Nf1. }
    { cbn [concat]. rewrite app_nil_r, Nf1. apply NoDup_filter. apply W. }
    { intros l [<-|[]]. unfold fl. rewrite Forall_map. apply Forall_forall. intros [n e] Hne. apply filter_In in Hne as [Hne _]. cbn [snd emap]. exact (leg_sorted t n e W Hne). }
    { intros gks HG Hz _. inversion HG as [|? k1 ? gk' [ds1 E1] HG']; subst. inversion HG'; subst. cbn [concat] in Hz. rewrite app_nil_r in Hz. change (t_edges p') with (t_edges tr). rewrite Z5'.
      constructor; [|constructor]. cbn [fst snd]. exists L. rewrite Fq, Hz, eqb_refl. split; [reflexivity|]. now rewrite Mf1. }
    assert (Hcm : concat (map lmaps [fl]) = mf) by (cbn [map concat]; now rewrite app_nil_r, Mf1).
    assert (Hcn : map fst (concat [fl]) = free) by (cbn [concat]; now rewrite app_nil_r, Nf1).
    rewrite Hcm in R4, R6, R7. rewrite Hcn in R3, R7.
    exists r, re2. split.
    { unfold trace. rewrite Hg. cbn [bind]. rewrite Nf.
      assert (Efl : filter (fun ne : nat * edge S => negb (mem_name (fst ne) (g_traced g))) (tlegs t) = filter (fun ne => negb (mem_name (fst ne) (A ++ B))) (tlegs t)) by (apply filter_ext; intro x; now rewrite Htm).
      rewrite Efl. rewrite (free_legs_fst t (fun n => negb (mem_name n (A ++ B))) W). fold free l1 l2 T1 T2 T3. fold a1. rewrite X1. cbn [bind]. rewrite Y1. cbn [nth_error get_or_ub bind].
      rewrite Z1. cbn [bind]. rewrite Z4. cbn [map hd_error get_or_ub bind tl fst snd]. rewrite D1. cbn [bind]. fold p'. fold fl. fold a3. exact R1. }
    split; [exact R2|]. split; [exact R3|]. split; [exact R4|]. split; [exact R5|]. split; [exact R6|].
    intros pos pt Ha Hr Hz. specialize (R7 pos pt Ha Hr Hz). cbv zeta in R7. change (t_edges p') with (t_edges tr) in R7. rewrite Z5' in R7. cbn [map combine forallb fst snd] in R7. rewrite Nf1, Mf1, andb_true_r in R7.
    pose proof (assigns_coord pos _ pt Ha) as Hpt. rewrite Hpt in Hr, Hz.
    assert (Tz : total (map (coord pos) free) = szero) by exact Hz.
    destruct R7 as [V1 [V2 _]].
    destruct V2 as [_ [v [V2 V3]]]. { rewrite Tz. unfold kp, mmem. rewrite Fq, eqb_refl. now destruct (Nat.leb _ 1). }
    destruct (const_at_elem r pos pt R2) as [w [U1 U2]]; [now rewrite R3|exact V1|]. rewrite U2. f_equal. rewrite U1 in V3. injection V3 as ->.
    set (j := snd (fuse mf (map (coord pos) free))) in *.
    assert (Hj : j < L) by (unfold L; rewrite <- Tz; apply fuse_bound; auto).
    assert (Ev : v = nth j dest rzero).
    { unfold fuse in V2. rewrite Tz in V2. unfold elem in V2. cbn [map fst snd] in V2. change (c_edges (t_core p')) with (t_edges tr) in V2. rewrite Z5' in V2. cbn [maps_of map dims_of] in V2. rewrite Fq, eqb_refl in V2.
      change (c_blocks (t_core p')) with [([@szero S SS], dest)] in V2. cbn [mfind] in V2.
      assert (Ek : eqb [@szero S SS] [szero] = true) by apply eqb_refl. rewrite Ek in V2. symmetry. apply nth_error_nth. exact V2. }
    rewrite Ev, (D3' j Hj). symmetry. unfold trace_sum. destruct len_AB as [LA LB].
    change (map (fun p : nat * nat => emap (edge_named (legs_of t) (fst p))) pairs) with (map (fun p : nat * nat => emap (edge_named (tlegs t) (fst p))) pairs).
    replace (map (fun p : nat * nat => emap (edge_named (tlegs t) (fst p))) pairs) with (mp t A) by (unfold mp, A; now rewrite map_map).
    assert (IA : incl A (t_names t)) by (intros x Hx; apply Hin; apply in_or_app; auto).
    assert (SA : sorted_maps (mp t A)) by (now apply mp_sorted).
    fold A B.
    assert (LenA : forall pt2, in_range (mp t A) pt2 -> length A = length pt2 /\ length B = length pt2).
    { intros pt2 H. apply in_range_length in H. unfold mp in H. rewrite map_length in H. lia. }
    (* coordinates of a position of the sum *)
    assert (Hmc : forall pt2 a b, in_range (mp t A) pt2 -> mates pairs a b -> exists x, mfind a (paired A B pt2 pos) = Some x /\ mfind b (paired A B pt2 pos) = Some (opposite x)).
    { intros pt2 a b Hpt2 Hab. destruct (LenA pt2 Hpt2) as [La Lb]. destruct Hab as [Hab|Hab]; apply pair_nth in Hab as [u [Ua Ub]].
      - destruct (paired_find A B pt2 pos u a b Hnd La Lb Ua Ub) as [x [_ [O1 O2]]]. eauto.
      - destruct (paired_find A B pt2 pos u b a Hnd La Lb Ua Ub) as [x [_ [O1 O2]]]. exists (opposite x). rewrite opposite_invol. auto. }
    assert (Hcoord : forall pt2 a b, in_range (mp t A) pt2 -> mates pairs a b -> coord (paired A B pt2 pos) b = opposite (coord (paired A B pt2 pos) a)).
    { intros pt2 a b Hpt2 Hab. destruct (Hmc pt2 a b Hpt2 Hab) as [x [O1 O2]]. unfold coord. now rewrite O1, O2. }
    assert (Hl2 : forall pt2, in_range (mp t A) pt2 -> map (coord (paired A B pt2 pos)) l2 = map opposite (map (coord (paired A B pt2 pos)) l1)).
    { intros pt2 Hpt2. assert (Hc : forall a b, mates pairs a b -> coord (paired A B pt2 pos) b = opposite (coord (paired A B pt2 pos) a)) by (intros; now apply Hcoord).
      clear - Hmates Hc. induction Hmates; [reflexivity|]. cbn [map]. f_equal; auto. }
    assert (Hfr : forall pt2, in_range (mp t A) pt2 -> map (coord (paired A B pt2 pos)) free = map (coord pos) free).
    { intros pt2 Hpt2. destruct (LenA pt2 Hpt2) as [La Lb]. apply map_ext_in. intros n Hn. unfold coord. rewrite paired_rest; auto. apply filter_In in Hn as [_ Hn]. apply negb_true_iff in Hn. now apply mem_name_false in Hn. }
    assert (Hrange : forall pt2, in_range (mp t A) pt2 -> forall n, In n (t_names t) -> exists d, In (fst (coord (paired A B pt2 pos) n), d) (emap (edge_named (tlegs t) n)) /\ snd (coord (paired A B pt2 pos) n) < d).
    { intros pt2 Hpt2 n Hn. destruct (LenA pt2 Hpt2) as [La Lb]. destruct (mem_name n (A ++ B)) eqn:Em.
      - apply mem_name_In in Em. apply in_app_or in Em as [Em|Em].
        + rewrite <- (paired_first A B pt2 pos Hnd La Lb) in Hpt2. unfold mp in Hpt2. rewrite in_range_named in Hpt2. exact (Hpt2 n Em).
        + assert (Hb : in_range (mp t B) (map (coord (paired A B pt2 pos)) B)).
          { rewrite paired_second by auto. apply (opp_range (mp t A)); [|exact Hpt2]. unfold mp, A, B. rewrite !map_map. apply Forall2_map_l, Forall2_map_r, Forall2_same. intros [a b] Hab. cbn [fst snd]. apply mates_opp. now left. }
          unfold mp in Hb. rewrite in_range_named in Hb. exact (Hb n Em).
      - assert (Hnf : In n free) by (apply filter_In; split; [exact Hn|now rewrite Em]).
        rewrite <- (Hfr pt2 Hpt2) in Hr. unfold mf, mp in Hr. rewrite in_range_named in Hr. exact (Hr n Hnf). }
    assert (Has : forall pt2, in_range (mp t A) pt2 -> assigns (paired A B pt2 pos) (t_names t) (map (coord (paired A B pt2 pos)) (t_names t)) /\ in_range (maps_of (t_edges t)) (map (coord (paired A B pt2 pos)) (t_names t))).
    { intros pt2 Hpt2. split.
      - unfold assigns. rewrite map_map. apply map_ext_in. intros n Hn. unfold coord. destruct (mem_name n (A ++ B)) eqn:Em.
        + apply mem_name_In in Em. assert (Hx : exists b, mates pairs n b).
          { apply in_app_or in Em as [Em|Em]; apply in_map_iff in Em as [[a b] [<- Hab]]; cbn [fst snd]; [exists b; now left|exists a; now right]. }
          destruct Hx as [b Hb]. destruct (Hmc pt2 n b Hpt2 Hb) as [x [-> _]]. reflexivity.
        + assert (Hnf : In n free) by (apply filter_In; split; [exact Hn|now rewrite Em]). destruct (LenA pt2 Hpt2) as [La Lb]. rewrite paired_rest; auto; [|now apply mem_name_false].
          apply In_nth_error in Hnf as [i Hi]. destruct (nth_same_length _ _ _ pt i n (assigns_length _ _ _ Ha) Hi) as [x Hx]. rewrite (assigns_nth _ _ _ _ _ _ Ha Hi Hx). reflexivity.
      - rewrite <- (legs_to_edges t W). unfold maps_of. rewrite map_map. apply in_range_named. apply Hrange. exact Hpt2. }
    assert (R1' : forall pt2, in_range (mp t A) pt2 -> in_range m1 (map (coord (paired A B pt2 pos)) l1)).
    { intros pt2 Hpt2. destruct (Has pt2 Hpt2) as [H1 H2]. unfold m1. eapply (mp_range t W); eauto. }
    assert (Sp0 : msorted (emap p0)) by (rewrite Y2; apply Q0).
    assert (Find0 : forall s, mfind s (emap p0) = if present m1 s then Some (merged_dim m1 s) else None) by (intro s; rewrite Y2; apply (merged_find _ _ _ Q0)).
    apply (rsum_bij EA) with (h := fun pt2 => fuse m1 (map (coord (paired A B pt2 pos)) l1)).
    - now apply NoDup_points.
    - now apply NoDup_flat.
    - intros pt2 Hpt2. apply in_points in Hpt2. pose proof (R1' pt2 Hpt2) as Hr1. pose proof (fuse_bound m1 _ S1 Hr1) as Hb.
      set (c := map (coord (paired A B pt2 pos)) l1) in *. destruct (Has pt2 Hpt2) as [H1 H2].
      assert (Pr : present m1 (total c) = true) by (now apply present_point).
      assert (Fd : mfind (total c) (emap p0) = Some (merged_dim m1 (total c))) by (now rewrite Find0, Pr).
      split. { unfold fuse at 1. apply in_flat; [exact Sp0|]. eauto. }
      destruct (Blk (total c) _ (mfind_In _ _ _ Fd)) as [_ [_ [data [B1 [B2 B3]]]]]. unfold F. change (fst (fuse m1 c)) with (total c). rewrite B1.
      assert (Hv : valid_pt (t_core t) (map (coord (paired A B pt2 pos)) (t_names t))).
      { split; [exact H2|]. transitivity (total (map (coord (paired A B pt2 pos)) (l1 ++ l2 ++ free))); [apply (total_perm _ _ _ Hq)|].
        unfold total. rewrite !map_app, !ssum_app. rewrite (Hl2 pt2 Hpt2), (Hfr pt2 Hpt2). fold c. fold (total c). fold (total (map opposite c)). fold (total (map (coord pos) free)). rewrite opposite_total, Tz, sadd_assoc, sadd_neg_r. apply sadd_0_l. }
      destruct (X7 _ _ H1 Hv) as [_ [v2 [G1 G2]]]. rewrite (sign_bose t a1 _ Nf) in G2. unfold signed in G2. cbn [Nat.odd Nat.even negb] in G2.
      destruct (const_at_elem t _ _ W H1 Hv) as [v' [G3 G4]]. rewrite G1 in G3. injection G3 as <-.
      unfold element. change (combine A pt2 ++ combine B (map opposite pt2) ++ pos) with (paired A B pt2 pos). rewrite G4. unfold diagonal. apply nth_error_nth. rewrite <- G2, <- B3. f_equal.
      change (a_new_names a1) with [T1; T2; T3]. cbn [map]. unfold merged_coord. rewrite Ff1, Ff2, Ff3. unfold joined. fold (mp t l1) (mp t l2) (mp t free). fold m1 m2 mf.
      rewrite (Hl2 pt2 Hpt2), (Hfr pt2 Hpt2). fold c. unfold fuse at 3 4 5. fold (fuse m1 c). f_equal. f_equal; [|f_equal].
      + apply injective_projections; cbn [fst snd]; [symmetry; apply opposite_total|symmetry; apply (K3 c Hr1)].
      + apply injective_projections; cbn [fst snd]; [now symmetry|reflexivity].
    - intros x y Hx Hy Exy. apply in_points in Hx, Hy. apply (fuse_injective m1) in Exy; auto.
      destruct (LenA x Hx) as [Lx1 Lx2]. destruct (LenA y Hy) as [Ly1 Ly2].
      rewrite <- (paired_first A B x pos Hnd Lx1 Lx2), <- (paired_first A B y pos Hnd Ly1 Ly2). apply map_ext_in. intros n Hn.
      assert (Hor : In n (l1 ++ l2)) by (eapply Permutation_in; [exact Hperm|apply in_or_app; auto]).
      assert (Exy2 : map (coord (paired A B x pos)) l2 = map (coord (paired A B y pos)) l2) by (rewrite !Hl2 by auto; now rewrite Exy).
      apply in_app_or in Hor as [Hor|Hor]; [exact (proj1 map_ext_in_iff Exy n Hor)|exact (proj1 map_ext_in_iff Exy2 n Hor)].
    - intros [s i] Hsi. apply in_flat in Hsi as [d [Hd Hi]]; [|exact Sp0]. rewrite Find0 in Hd. destruct (present m1 s) eqn:Pr; [|discriminate]. injection Hd as <-.
      destruct (fuse_surjective m1 s i S1 Hi) as [pc [Hpc Hfu]].
      assert (Nl : NoDup (l1 ++ l2)) by (eapply Permutation_NoDup; [exact Hperm|exact Hnd]).
      assert (Lc : length l1 = length pc) by (apply in_range_length in Hpc; unfold m1, mp in Hpc; rewrite map_length in Hpc; lia).
      assert (Lc2 : length l2 = length pc) by (pose proof (Forall2_len _ _ _ _ _ Hmates); lia).
      set (Q := paired l1 l2 pc []).
      assert (HQ : forall a b, mates pairs a b -> coord Q b = opposite (coord Q a)).
      { intros a b Hab. assert (Ha' : In a (l1 ++ l2)) by (eapply Permutation_in; [exact Hperm|exact (mates_mentioned pairs a b Hab)]).
        assert (Hu : exists u, (nth_error l1 u = Some a /\ nth_error l2 u = Some b) \/ (nth_error l1 u = Some b /\ nth_error l2 u = Some a)).
        { apply in_app_or in Ha' as [Ha'|Ha']; apply In_nth_error in Ha' as [u Hu].
          - destruct (forall2_nth _ _ _ _ _ Hmates u a Hu) as [y [Hy1 Hy2]]. exists u. left. split; [exact Hu|]. now rewrite (mates_unique pairs Hnd a b y Hab Hy2).
          - destruct (nth_error l1 u) as [y|] eqn:Ey; [|apply nth_error_None in Ey; assert (u < length l2) by (apply nth_error_Some; congruence); lia].
            destruct (forall2_nth _ _ _ _ _ Hmates u y Ey) as [z [Hz1 Hz2]]. rewrite Hu in Hz1. injection Hz1 as <-. exists u. right. split; [|exact Hu]. rewrite Ey. f_equal. exact (mates_unique pairs Hnd a y b (mates_sym pairs _ _ Hz2) Hab). }
        destruct Hu as [u [[U3 U4]|[U3 U4]]].
        - destruct (paired_find l1 l2 pc [] u a b Nl Lc Lc2 U3 U4) as [x [_ [O1 O2]]]. unfold coord, Q. now rewrite O1, O2.
        - destruct (paired_find l1 l2 pc [] u b a Nl Lc Lc2 U3 U4) as [x [_ [O1 O2]]]. unfold coord, Q. rewrite O1, O2. now rewrite opposite_invol. }
      assert (HQr : forall n, In n (l1 ++ l2) -> exists d, In (fst (coord Q n), d) (emap (edge_named (tlegs t) n)) /\ snd (coord Q n) < d).
      { assert (R2' : in_range m2 (map (coord Q) l2)) by (unfold Q; rewrite paired_second by auto; now apply (opp_range m1)).
        assert (R1'' : in_range m1 (map (coord Q) l1)) by (unfold Q; rewrite paired_first by auto; exact Hpc).
        unfold m1, m2, mp in R1'', R2'. rewrite in_range_named in R1'', R2'. intros n Hn. apply in_app_or in Hn as [Hn|Hn]; auto. }
      set (pt2 := map (coord Q) A). assert (Hpt2 : in_range (mp t A) pt2).
      { unfold pt2, mp. apply in_range_named. intros n Hn. apply HQr. eapply Permutation_in; [exact Hperm|apply in_or_app; auto]. }
      exists pt2. split; [now apply in_points|]. rewrite <- Hfu. f_equal.
      rewrite <- (paired_first l1 l2 pc [] Nl Lc Lc2). fold Q. apply map_ext_in. intros n Hn. destruct (LenA pt2 Hpt2) as [La Lb].
      assert (HA : forall a, In a A -> coord (paired A B pt2 pos) a = coord Q a) by (apply map_ext_in_iff; rewrite paired_first; auto).
      assert (Hor : In n (A ++ B)) by (eapply Permutation_in; [apply Permutation_sym; exact Hperm|apply in_or_app; auto]). apply in_app_or in Hor as [Hor|Hor]; [now apply HA|].
      apply in_map_iff in Hor as [[a b] [<- Hab]]. cbn [snd]. rewrite (Hcoord pt2 a b Hpt2 (or_introl Hab)), (HQ a b (or_introl Hab)). f_equal. apply HA. now apply (in_map fst) in Hab.
  Qed.

  (** the same in the words of Spec/Contract.v *)
  Theorem trace_stated : exists r, trace E I t pairs = Ok r /\ wf_tensor r /\ t_names r = free_names (t_names t) (map fst pairs ++ map snd pairs) /\
    (forall pt, valid_pt (t_core r) pt <-> in_range (map (fun n => emap (edge_named (legs_of t) n)) (free_names (t_names t) (map fst pairs ++ map snd pairs))) pt /\ ssum (map fst pt) = szero) /\
    forall pos pt, assigns pos (t_names r) pt -> valid_pt (t_core r) pt -> const_at r pos = Ok (trace_sum t pairs pos).
  Proof.
    destruct trace_sym as [r [re [Hr [Wr [Hn [Hm [He [Hk Hv]]]]]]]].
    assert (V : forall pt, valid_pt (t_core r) pt <-> in_range (mp t free) pt /\ ssum (map fst pt) = szero).
    { assert (Hs : sorted_maps (mp t free)) by (apply mp_sorted; [exact W|intros x Hx; apply filter_In in Hx; tauto]).
      intro pt. unfold valid_pt. change (c_edges (t_core r)) with (t_edges r). rewrite He. split; intros [H1 H2]; (split; [|exact H2]).
      - apply prune_range_inv in H1. now rewrite Hm in H1.
      - apply prune_range; [now rewrite Hm| |now rewrite Hm]. rewrite Hk. apply in_range_dims in H1 as [ds [H1 _]]; [|exact Hs].
        apply in_map_iff. exists (map fst pt, prod ds). split; [reflexivity|]. apply in_block_list. split; [|exact H2]. apply dims_of_choice; eauto. }
    exists r. split; [exact Hr|]. split; [exact Wr|]. split; [exact Hn|]. split; [exact V|].
    intros pos pt Ha Hpt. apply V in Hpt as [Q1 Q2]. apply (Hv pos pt); [|exact Q1|exact Q2]. rewrite Hn in Ha. exact Ha.
  Qed.

  (** ** without a diagonal block *)
  Lemma dims_at : forall (m : nat -> list entry) (c : nat -> S) l, (forall n, In n l -> exists d, mfind (c n) (m n) = Some d) -> exists ds, dims_of (map m l) (map c l) = Some ds.
  Proof.
    intros m c l. induction l as [|x l IH]; intro H; [exists []; reflexivity|]. cbn [map dims_of]. destruct (H x (or_introl eq_refl)) as [d ->].
    destruct IH as [ds ->]; [intros; apply H; now right|]. eauto.
  Qed.
  Lemma dims_find : forall (m : nat -> list entry) l k ds, dims_of (map m l) k = Some ds -> forall i n s, nth_error l i = Some n -> nth_error k i = Some s -> exists d, mfind s (m n) = Some d.
  Proof.
    intros m l. induction l as [|x l IH]; intros k ds H i n s Hi Hk; [destruct i; discriminate|]. destruct k as [|s' k]; [destruct i; discriminate|]. cbn [map dims_of] in H.
    destruct (mfind s' (m x)) as [d|] eqn:Ed; [|discriminate]. destruct (dims_of (map m l) k) as [ds'|] eqn:Eds; [|discriminate]. destruct i as [|i]; cbn [nth_error] in *; [injection Hi as <-; injection Hk as <-; eauto|]. eapply IH; eauto.
  Qed.
  Lemma diagonal_from : forall l1 l2 s, Forall2 (mates pairs) l1 l2 -> Permutation (A ++ B) (l1 ++ l2) -> Permutation (t_names t) (l1 ++ l2 ++ free) ->
    present (mp t l1) s = true -> present (mp t free) szero = true -> diagonal_block t pairs.
  Proof.
    clear HP HB. intros l1 l2 s Hm Hp Hq Hs Hf.
    assert (Ifr : incl free (t_names t)) by (intros x Hx; apply filter_In in Hx; tauto).
    assert (I1 : incl l1 (t_names t)) by (intros x Hx; eapply Permutation_in; [apply Permutation_sym; exact Hq|]; rewrite !in_app_iff; auto).
    apply (present_iff _ _ (mp_sorted t W l1 I1)) in Hs as [k1 [d1 [Hk1 Hs1]]]. apply (present_iff _ _ (mp_sorted t W free Ifr)) in Hf as [kf [df [Hkf Hsf]]].
    assert (L1 : length l1 = length k1) by (apply dims_of_length in Hk1 as [H1 H2]; unfold mp in *; rewrite map_length in *; lia).
    assert (Lf : length free = length kf) by (apply dims_of_length in Hkf as [H1 H2]; unfold mp in *; rewrite map_length in *; lia).
    assert (L2 : length l2 = length k1) by (pose proof (Forall2_len _ _ _ _ _ Hm); lia).
    assert (Nall : NoDup (l1 ++ l2 ++ free)) by (eapply Permutation_NoDup; [exact Hq|apply W]).
    assert (N12 : NoDup (l1 ++ l2)) by (rewrite app_assoc in Nall; apply NoDup_halves in Nall; tauto).
    assert (Nfr : NoDup free) by (apply NoDup_filter; apply W).
    set (z := fun x : S => (x, 0)). set (Q := paired l1 l2 (map z k1) (combine free (map z kf))). set (ch := fun n => fst (coord Q n)).
    assert (Lz1 : length l1 = length (map z k1)) by (now rewrite map_length). assert (Lz2 : length l2 = length (map z k1)) by (now rewrite map_length).
    assert (C1 : map ch l1 = k1).
    { unfold ch. rewrite <- (map_map (coord Q) fst). unfold Q. rewrite paired_first by auto. rewrite map_map. apply map_id. }
    assert (C2 : map ch l2 = map sneg k1).
    { unfold ch. rewrite <- (map_map (coord Q) fst). unfold Q. rewrite paired_second by auto. rewrite !map_map. reflexivity. }
    assert (Cf : map ch free = kf).
    { transitivity (map fst (map (coord (combine free (map z kf))) free)).
      - rewrite map_map. apply map_ext_in. intros n Hn. unfold ch, coord, Q. rewrite paired_rest; auto. intro Hc. rewrite app_assoc in Nall. exact (app_disjoint _ _ _ n Nall Hc Hn).
      - rewrite combine_coords by (auto; now rewrite map_length). rewrite map_map. apply map_id. }
    assert (Hmc : forall a b, mates pairs a b -> ch b = sneg (ch a)).
    { assert (Hl : forall u a b, nth_error l1 u = Some a -> nth_error l2 u = Some b -> ch b = sneg (ch a)).
      { intros u a b Ha Hb. destruct (paired_find l1 l2 (map z k1) (combine free (map z kf)) u a b N12 Lz1 Lz2 Ha Hb) as [x [_ [O1 O2]]]. unfold ch, coord. fold Q in O1, O2. now rewrite O1, O2. }
      intros a b Hab. assert (Ha' : In a (l1 ++ l2)) by (eapply Permutation_in; [exact Hp|exact (mates_mentioned pairs a b Hab)]).
      apply in_app_or in Ha' as [Ha'|Ha']; apply In_nth_error in Ha' as [u Hu].
      - destruct (forall2_nth _ _ _ _ _ Hm u a Hu) as [y [Hy1 Hy2]]. rewrite <- (mates_unique pairs Hnd a b y Hab Hy2) in Hy1. exact (Hl u a b Hu Hy1).
      - destruct (nth_error l1 u) as [y|] eqn:Ey; [|apply nth_error_None in Ey; assert (u < length l2) by (apply nth_error_Some; congruence); lia].
        destruct (forall2_nth _ _ _ _ _ Hm u y Ey) as [z' [Hz1 Hz2]]. rewrite Hu in Hz1. injection Hz1 as <-. rewrite (mates_unique pairs Hnd a b y Hab (mates_sym pairs _ _ Hz2)).
        now rewrite (Hl u y a Ey Hu), sneg_invol. }
    assert (Hall : forall n, In n (t_names t) -> exists d, mfind (ch n) (emap (edge_named (tlegs t) n)) = Some d).
    { assert (H1 : forall n, In n l1 -> exists d, mfind (ch n) (emap (edge_named (tlegs t) n)) = Some d).
      { intros n Hn. apply In_nth_error in Hn as [u Hu]. eapply (dims_find (fun n => emap (edge_named (tlegs t) n))); [exact Hk1|exact Hu|]. rewrite <- C1, nth_error_map, Hu. reflexivity. }
      intros n Hn. eapply Permutation_in in Hn; [|exact Hq]. rewrite !in_app_iff in Hn. destruct Hn as [Hn|[Hn|Hn]]; [auto| |].
      - apply In_nth_error in Hn as [u Hu]. destruct (nth_error l1 u) as [y|] eqn:Ey; [|apply nth_error_None in Ey; assert (u < length l2) by (apply nth_error_Some; congruence); lia].
        destruct (forall2_nth _ _ _ _ _ Hm u y Ey) as [z' [Hz1 Hz2]]. rewrite Hu in Hz1. injection Hz1 as <-. rewrite (Hmc y n Hz2), (opp_find _ _ _ (mates_opp y n Hz2)). apply H1. eapply nth_error_In; eauto.
      - apply In_nth_error in Hn as [u Hu]. eapply (dims_find (fun n => emap (edge_named (tlegs t) n))); [exact Hkf|exact Hu|]. rewrite <- Cf, nth_error_map, Hu. reflexivity. }
    destruct (dims_at (fun n => emap (edge_named (tlegs t) n)) ch (t_names t) Hall) as [ds Hds].
    assert (Hds' : dims_of (maps_of (t_edges t)) (map ch (t_names t)) = Some ds).
    { rewrite <- Hds. f_equal. rewrite <- (legs_to_edges t W) at 1. unfold maps_of. now rewrite map_map. }
    assert (Hz : ssum (map ch (t_names t)) = szero).
    { rewrite (ssum_perm _ _ (Permutation_map ch Hq)), !map_app, C1, C2, Cf, app_assoc, !ssum_app, ssum_neg, sadd_neg_r, Hsf. apply sadd_0_l. }
    destruct (wf_block_find (t_core t) _ ds (wf_tcore _ W) Hds' Hz) as [data [B1 _]]. exists (map ch (t_names t)), data. split; [now apply mfind_In in B1|].
    assert (Hch : forall n, In n (t_names t) -> mfind n (combine (t_names t) (map ch (t_names t))) = Some (ch n)).
    { intros n Hn. apply In_nth_error in Hn as [i Hi]. apply (In_mfind_nodup (combine (t_names t) (map ch (t_names t)))).
      - rewrite combine_map_fst by (now rewrite map_length). apply W.
      - eapply nth_error_In. apply combine_nth_some; [exact Hi|]. rewrite nth_error_map, Hi. reflexivity. }
    intros a b Hab. assert (Hab' : mates pairs a b) by (now left).
    rewrite !Hch by (apply Hin; first [exact (mates_mentioned pairs a b Hab')|exact (mates_mentioned pairs b a (mates_sym pairs _ _ Hab'))]). cbn [option_map]. f_equal. now apply Hmc.
  Qed.
End Trace.

Section Undefined.
  Context {S R : Type} {SS : Sym S} {SL : SymLaws S} {RR : Scalar R}.
  Notation entry := (S * nat)%type.

  Theorem trace_undefined : @is_fermi S SS = false -> forall (E : @env R) (I : internal) (t : tensor S R) pairs, NoDup [i_trace_1 I; i_trace_2 I; i_trace_3 I] -> wf_tensor t ->
    NoDup (map fst pairs ++ map snd pairs) -> incl (map fst pairs ++ map snd pairs) (t_names t) ->
    (forall a b s d, In (a, b) pairs -> In (s, d) (emap (edge_named (tlegs t) a)) <-> In (sneg s, d) (emap (edge_named (tlegs t) b))) ->
    ~ diagonal_block t pairs -> trace E I t pairs = UB.
  Proof.
    intros Nf E I t pairs HI W Hnd Hin HM HB.
    destruct (walk_ok Nf t pairs (wf_nodup _ W) Hnd Hin) as [g [Hg [Hmates [Hperm Htr]]]].
    set (A := map fst pairs) in *. set (B := map snd pairs) in *.
    set (l1 := g_1 g) in *. set (l2 := g_2 g) in *. set (free := filter (fun n => negb (mem_name n (A ++ B))) (t_names t)).
    set (T1 := i_trace_1 I) in *. set (T2 := i_trace_2 I) in *. set (T3 := i_trace_3 I) in *.
    assert (Htm : forall n, mem_name n (g_traced g) = mem_name n (A ++ B)).
    { intro n. destruct (mem_name n (A ++ B)) eqn:Em.
      - apply mem_name_In. apply Htr. now apply mem_name_In in Em. - apply mem_name_false. rewrite Htr. now apply mem_name_false in Em. }
    assert (Hq : Permutation (t_names t) (l1 ++ l2 ++ free)).
    { rewrite app_assoc. etransitivity; [apply (two_groups (SS := SS) [] (or_introl (Nat.le_0_l 1)) t (l1 ++ l2) (A ++ B) W Hperm Hin Hnd)|]. apply Permutation_app_comm. }
    set (a1 := mkArgs [] [] [] (of_list [(T1, l1); (T2, l2); (T3, free)]) [T1; T2; T3] false [] [] [] [T1] [] : @eo_args S).
    assert (F1 : forall n x, In (n, x) [(T1, l1); (T2, l2); (T3, free)] -> mfind n (a_merge a1) = Some x).
    { intros n x H. cbn [a1 a_merge]. apply (of_list_find nat (list nat) _ _); [exact HI|exact H]. }
    assert (Ff1 : mfind T1 (a_merge a1) = Some l1) by (apply F1; simpl; auto). assert (Ff2 : mfind T2 (a_merge a1) = Some l2) by (apply F1; simpl; auto). assert (Ff3 : mfind T3 (a_merge a1) = Some free) by (apply F1; simpl; auto).
    assert (G : groups a1 = [l1; l2; free]).
    { unfold groups, merge_groups. change (a_new_names a1) with [T1; T2; T3]. cbn [map]. now rewrite Ff1, Ff2, Ff3. }
    destruct (regroup E t a1 W eq_refl eq_refl eq_refl) as [m [re [X1 [X2 [X3 [X4 [X5 [X6 _]]]]]]]].
    { intro Hc. rewrite Hc in Ff1. discriminate. } { exact HI. }
    { rewrite G. cbn [concat]. now rewrite app_nil_r. } { intro H. rewrite Nf in H. discriminate. }
    rewrite G in X4. inversion X4 as [|? x0 ? re' Q0 X4']; subst. inversion X4' as [|? x1 ? re'' Q1 X4'']; subst. inversion X4'' as [|? x2 ? re3 Q2 X4''']; subst. inversion X4'''; subst. clear X4 X4' X4'' X4'''.
    assert (Gm : forall gr e, group_edge E t a1 gr e -> merged_map (mp t gr) (emap e)).
    { intros gr e He. pose proof (ge_map _ _ _ _ _ He) as M. rewrite (rg_legs t a1 W eq_refl eq_refl eq_refl) in M. exact M. }
    apply Gm in Q0, Q1, Q2. cbn [prune_from Nat.add] in X5.
    set (p2 := mkEdge (earrow x2) (filter (fun sd => used_in (t_blocks m) 2 (fst sd)) (emap x2))) in *.
    assert (Hs2 : nth_error (t_edges m) 2 = Some p2) by (rewrite X5; reflexivity).
    assert (Sp2 : msorted (emap p2)).
    { pose proof (wf_maps _ (wf_tcore _ X2)) as Hs. unfold sorted_maps, maps_of in Hs. rewrite Forall_map, Forall_forall in Hs. apply Hs. apply nth_error_In in Hs2. exact Hs2. }
    assert (Hno : mfind szero (emap p2) = None).
    { cbn [p2 emap]. rewrite (mfind_filter_key (emap x2) (used_in (t_blocks m) 2) szero). destruct (used_in (t_blocks m) 2 szero) eqn:Eu; [|reflexivity].
      apply used_in_true in Eu as [key [U1 U2]]. rewrite X6 in U1. apply in_map_iff in U1 as [[k n] [<- U1]]. cbn [fst] in U2. apply in_block_list in U1 as [U1 Uz]. cbn [maps_of map] in U1.
      apply dims_of_choice in U1 as [ds [Hd _]]; [|repeat constructor; [apply Q0|apply Q1|apply Q2]].
      destruct k as [|s1 [|s2 [|s3 [|? ?]]]]; cbn [nth_error] in U2; try discriminate.
      2: { cbn [dims_of] in Hd. destruct (mfind s1 (emap x0)); [|discriminate]. destruct (mfind s2 (emap x1)); [|discriminate]. destruct (mfind s3 (emap x2)); discriminate. }
      injection U2 as U2. rewrite U2 in Hd. cbn [dims_of] in Hd. destruct (mfind s1 (emap x0)) as [e0|] eqn:E0; [|discriminate]. destruct (mfind s2 (emap x1)) as [e1|] eqn:E1; [|discriminate]. destruct (mfind szero (emap x2)) as [e2|] eqn:E2; [|discriminate].
      exfalso. apply HB. rewrite (merged_find _ _ _ Q0) in E0. rewrite (merged_find _ _ _ Q2) in E2. destruct (present (mp t l1) s1) eqn:P1; [|discriminate]. destruct (present (mp t free) szero) eqn:P2; [|discriminate].
      exact (diagonal_from t pairs W Hnd Hin HM l1 l2 s1 Hmates Hperm Hq P1 P2). }
    destruct (make_tensor_ok (env_junk E) [T3] [p2] false) as [tr [Z1 [_ [_ [Z4 _]]]]].
    { repeat constructor. exact Sp2. } { repeat constructor; auto. } { reflexivity. }
    cbn [maps_of map] in Z4. assert (Hb : block_list [emap p2] = []).
    { destruct (block_list [emap p2]) as [|[k n] bl] eqn:Eb; [reflexivity|]. exfalso. assert (Hk : In (k, n) (block_list [emap p2])) by (rewrite Eb; now left). apply in_block_list in Hk as [Hk Hz].
      apply dims_of_choice in Hk as [ds [Hd _]]; [|repeat constructor; exact Sp2]. destruct k as [|s [|? ?]]; cbn [dims_of] in Hd; try discriminate; [|destruct (mfind s (emap p2)); discriminate].
      rewrite ssum_one in Hz. rewrite Hz, Hno in Hd. discriminate. }
    rewrite Hb in Z4. unfold junk_blocks in Z4. cbn [map] in Z4.
    unfold trace. rewrite Hg. cbn [bind]. rewrite Nf.
    assert (Efl : filter (fun ne : nat * edge S => negb (mem_name (fst ne) (g_traced g))) (tlegs t) = filter (fun ne => negb (mem_name (fst ne) (A ++ B))) (tlegs t)) by (apply filter_ext; intro x; now rewrite Htm).
    rewrite Efl. rewrite (free_legs_fst t (fun n => negb (mem_name n (A ++ B))) W). fold free l1 l2 T1 T2 T3. fold a1. rewrite X1. cbn [bind]. rewrite Hs2. cbn [get_or_ub bind].
    rewrite Z1. cbn [bind]. rewrite Z4. reflexivity.
  Qed.

  (** plain tensors always have a diagonal block *)
  Lemma plain_diagonal : @is_nosym S SS = true -> forall (t : tensor S R) pairs, wf_tensor t -> incl (map fst pairs ++ map snd pairs) (t_names t) -> t_blocks t <> [] -> diagonal_block t pairs.
  Proof.
    intros Ns t pairs W Hin Hb. destruct (t_blocks t) as [|[key data] bl] eqn:Eb; [congruence|]. exists key, data. rewrite Eb. split; [now left|]. intros a b Hab.
    assert (Lk : length (t_names t) = length key).
    { assert (K : In key (map fst (c_blocks (t_core t)))) by (change (c_blocks (t_core t)) with (t_blocks t); rewrite Eb; now left).
      rewrite <- shape_keys, (wf_shape _ (wf_tcore _ W)) in K. apply in_map_iff in K as [[k n] [<- K]]. cbn [fst]. apply in_block_list in K as [K _]. apply dims_of_choice in K as [ds [K _]]; [|apply W].
      apply dims_of_length in K as [K1 K2]. unfold maps_of in *. rewrite map_length in *. change (c_edges (t_core t)) with (t_edges t) in *. rewrite (wf_rank _ W). lia. }
    assert (Hf : forall n, In n (t_names t) -> exists s, mfind n (combine (t_names t) key) = Some s).
    { intros n Hn. assert (Hk : In n (map fst (combine (t_names t) key))) by (now rewrite combine_map_fst). apply mfind_Some_In in Hk as [s Hs]. eauto. }
    destruct (Hf a) as [s ->]; [apply Hin; apply in_or_app; left; now apply (in_map fst) in Hab|]. destruct (Hf b) as [s' ->]; [apply Hin; apply in_or_app; right; now apply (in_map snd) in Hab|].
    cbn [option_map]. f_equal. rewrite (plain_charge Ns s'), (plain_charge Ns (sneg s)). reflexivity.
  Qed.
  Theorem trace_plain : @is_nosym S SS = true -> @is_fermi S SS = false -> exact_arithmetic R ->
    forall (E : @env R) (I : internal) (t : tensor S R) pairs, NoDup [i_trace_1 I; i_trace_2 I; i_trace_3 I] -> wf_tensor t -> t_blocks t <> [] ->
    NoDup (map fst pairs ++ map snd pairs) -> incl (map fst pairs ++ map snd pairs) (t_names t) ->
    (forall a b, In (a, b) pairs -> emap (edge_named (legs_of t) a) = emap (edge_named (legs_of t) b)) ->
    exists r, trace E I t pairs = Ok r /\ wf_tensor r /\ t_names r = free_names (t_names t) (map fst pairs ++ map snd pairs) /\
    (forall pt, valid_pt (t_core r) pt <-> in_range (map (fun n => emap (edge_named (legs_of t) n)) (free_names (t_names t) (map fst pairs ++ map snd pairs))) pt) /\
    forall pos pt, assigns pos (t_names r) pt -> valid_pt (t_core r) pt -> const_at r pos = Ok (trace_sum t pairs pos).
  Proof.
    intros Ns Nf EA E I t pairs HI W Hb Hnd Hin HM.
    destruct (trace_stated Nf EA E I t pairs HI W Hnd Hin) as [r [H1 [H2 [H3 [H4 H5]]]]].
    - intros a b s d Hab. specialize (HM a b Hab). unfold legs_of in HM. rewrite HM, (plain_charge Ns s), (plain_charge Ns (sneg szero)). reflexivity.
    - right. intro s. rewrite (plain_charge Ns s). apply (plain_charge Ns).
    - now apply plain_diagonal.
    - exists r. split; [exact H1|]. split; [exact H2|]. split; [exact H3|]. split; [|exact H5]. intro pt. rewrite H4. split; [tauto|]. intro H. split; [exact H|apply (plain_charge Ns)].
  Qed.
End Undefined.
