(** Tensor::qr: the two factors, for all tensors. *)
From Coq Require Import String Ascii List Bool Arith Lia Sorted Permutation.
From Verif Require Import Base.Outcome Base.SMap Model.Symmetry Model.Edge Model.Core Model.Transpose Model.EdgeOperator Model.Contract Model.Qr
  Spec.Blocks Spec.Fuse Spec.Sign Spec.Relabel Spec.Contract Spec.FermiContract Spec.Matrix Spec.Lapack Spec.Factor Proof.SymmetryFacts Proof.LoopFacts Proof.CoreFacts Proof.ConstructFacts Proof.ElemFacts Proof.OffsetFacts
  Proof.CopyLoopFacts Proof.GroupFacts Proof.MergeFacts Proof.TableFacts Proof.SumFacts Proof.MatrixFacts Proof.SignFacts Proof.ExchangeFacts Proof.TransposeFacts Proof.TransposeTensor Proof.TransposeNames Proof.EdgeOperatorFacts Proof.NamedOperator Proof.LegFacts Proof.MergeSplit
  Proof.SplitMerged Proof.SplitAll Proof.SplitSome Proof.SplitLeg Proof.RegroupFacts Proof.TwoLegs Proof.ContractPlain Proof.ContractNames Proof.ContractSym Proof.FactorFacts Proof.FactorSides Proof.TwoFactor Proof.QrKernel.
Import ListNotations.
Local Open Scope list_scope.
Local Notation tlegs t := (combine (t_names t) (t_edges t)).

Section Weaken.
  Context {S R : Type} {SS : Sym S} {SL : SymLaws S} {RR : Scalar R}.
  Lemma factor_ext : forall (t X : tensor S R) g h c lc ar ar' sg sg' K K' m m', factor t X g h c lc ar sg K m ->
    (is_fermi = true -> ar = ar' /\ sg = sg') -> (forall s, K s = K' s) -> (forall s i j, m s i j = m' s i j) -> factor t X g h c lc ar' sg' K' m'.
  Proof.
    intros t X g h c lc ar ar' sg sg' K K' m m' F Hb HK Hm. constructor; try apply F.
    - intro s. rewrite <- HK. apply F.
    - intro Hf. rewrite <- (proj1 (Hb Hf)). now apply F.
    - intros pos s j H1 H2 H3 H4 H5 H6. rewrite <- HK in H6. rewrite (fc_elem _ _ _ _ _ _ _ _ _ _ F pos s j H1 H2 H3 H4 H5 H6), Hm.
      destruct (bool_dec (@is_fermi S SS) true) as [Hf|Hf]; [now rewrite (proj2 (Hb Hf))|]. apply not_true_is_false in Hf. rewrite (bose_odd Hf), !andb_false_r. reflexivity.
  Qed.
End Weaken.

Section Loop.
  Context {S R : Type} {SS : Sym S} {SL : SymLaws S} {RR : Scalar R}.
  Hypothesis EA : exact_arithmetic R.
  Variable L : qr_lapack R.
  Hypothesis HL : qr_sound L.
  Variables (t : tensor S R) (g1 g2 : list nat).
  Notation live := (live t g1 g2). Notation dl := (dl t g1). Notation dr := (dr t g2). Notation km := (km t g1 g2).
  Variables (e0 e1 : edge S) (junk : R) (use_qr : bool).
  Hypothesis He0 : forall s, mfind s (emap e0) = if live s then Some (dl s) else None.
  Hypothesis He1 : forall s, mfind s (emap e1) = if live (sneg s) then Some (dr (sneg s)) else None.

  Definition sized (bl : list (list S * list R)) (f : S -> nat) : Prop := forall s, live s = true -> exists d, mfind [s; sneg s] bl = Some d /\ length d = f s.
  Lemma sized_mset : forall bl f s d, sized bl f -> live s = true -> length d = f s -> sized (mset [s; sneg s] d bl) f.
  Proof.
    intros bl f s d H Hs Hl x Hx. destruct (ord_dec [x; sneg x] [s; sneg s]) as [Q|Q].
    - apply pair_key in Q. subst x. exists d. now rewrite mfind_mset_same.
    - rewrite mfind_mset_other by exact Q. now apply H.
  Qed.

  Lemma qr_loop : forall bl b1 b2, msorted b1 -> msorted b2 -> sized b1 (fun s => dl s * km s) -> sized b2 (fun s => km s * dr s) -> NoDup (map fst bl) ->
    (forall kb, In kb bl -> exists s, fst kb = [s; sneg s] /\ live s = true /\ length (snd kb) = dl s * dr s) ->
    (exists msg, foldM (qr_block L junk e0 e1 use_qr) bl (b1, b2) = Throw (RuntimeError msg) /\ ~ qr_never_fails L) \/
    exists b1' b2', foldM (qr_block L junk e0 e1 use_qr) bl (b1, b2) = Ok (b1', b2') /\ shape b1' = shape b1 /\ shape b2' = shape b2 /\
      (forall s, live s = true -> ~ In [s; sneg s] (map fst bl) -> mfind [s; sneg s] b1' = mfind [s; sneg s] b1 /\ mfind [s; sneg s] b2' = mfind [s; sneg s] b2) /\
      (forall s data, live s = true -> In ([s; sneg s], data) bl -> exists d1 d2, mfind [s; sneg s] b1' = Some d1 /\ mfind [s; sneg s] b2' = Some d2 /\
         factored (dl s) (dr s) (km s) data d1 d2 /\ is_qr use_qr (dl s) (dr s) (km s) d1 d2).
  Proof.
    induction bl as [|[key data] bl IH]; intros b1 b2 S1 S2 Z1 Z2 ND Hb.
    - right. exists b1, b2. cbn [foldM]. repeat (split; [reflexivity|]). split; [auto|]. intros s data _ [].
    - destruct (Hb (key, data) (or_introl eq_refl)) as [s [Ks [Hs Hd]]]. cbn [fst snd] in Ks, Hd. subst key.
      cbn [map fst] in ND. inversion ND as [|? ? N1 N2]; subst.
      destruct (Z1 s Hs) as [d1 [D1 L1]]. destruct (Z2 s Hs) as [d2 [D2 L2]].
      assert (Hb' : forall kb, In kb bl -> exists s, fst kb = [s; sneg s] /\ live s = true /\ length (snd kb) = dl s * dr s) by (intros kb H; apply Hb; now right).
      assert (QB : qr_block L junk e0 e1 use_qr (b1, b2) ([s; sneg s], data) =
        if Nat.eqb (dl s * dr s) 0 then Ok (b1, b2) else bind (calculate_qr L junk (dl s) (dr s) (km s) data d1 d2 use_qr) (fun d => Ok (mset [s; sneg s] (fst d) b1, mset [s; sneg s] (snd d) b2))).
      { unfold qr_block. rewrite D1, D2. cbn [at_or_throw bind nth_error get_or_ub]. rewrite He0, Hs. cbn [at_or_throw bind]. rewrite He1, sneg_invol, Hs. reflexivity. }
      cbn [foldM]. rewrite QB. clear QB.
      destruct (Nat.eqb_spec (dl s * dr s) 0) as [Z|Z].
      + cbn [bind]. destruct (IH b1 b2 S1 S2 Z1 Z2 N2 Hb') as [A|[b1' [b2' [A1 [A2 [A3 [A4 A5]]]]]]]; [now left|right].
        exists b1', b2'. split; [exact A1|]. split; [exact A2|]. split; [exact A3|]. split.
        * intros x Hx Hn. apply A4; [exact Hx|]. intro C. apply Hn. now right.
        * intros x dx Hx [Q|Hin]; [|now apply A5]. pose proof (pair_key _ _ (f_equal fst Q)) as Q1; pose proof (f_equal snd Q) as Q2; cbn [snd] in Q2; subst x dx. destruct (A4 s Hs N1) as [B1 B2]. exists d1, d2. rewrite B1, B2. split; [exact D1|]. split; [exact D2|].
          assert (K0 : km s = 0) by (unfold TwoFactor.km; destruct (Nat.ltb_spec (dr s) (dl s)); nia).
          split; [constructor; [exact L1|exact L2|intros i j Hi Hj; nia]|]. rewrite K0. unfold is_qr. destruct use_qr; split; try (intros a b Ha; lia); intros; lia.
      + destruct (calculate_ok EA L HL junk (dl s) (dr s) data d1 d2 use_qr) as [[msg [A1 A2]]|[r1 [r2 [A1 [A2 A3]]]]]; [nia|nia|exact Hd|exact L1|exact L2| |]; fold (km s) in *; change (if Nat.ltb (dr s) (dl s) then dr s else dl s) with (km s) in *.
        * left. exists msg. rewrite A1. split; [reflexivity|exact A2].
        * rewrite A1. cbn [bind fst snd].
          destruct (IH (mset [s; sneg s] r1 b1) (mset [s; sneg s] r2 b2)) as [A|[b1' [b2' [B1 [B2 [B3 [B4 B5]]]]]]]; try (now apply mset_sorted); auto.
          { apply sized_mset; auto. apply A2. } { apply sized_mset; auto. apply A2. }
          right. exists b1', b2'. split; [exact B1|].
          split; [rewrite B2; eapply mset_shape; [exact D1|rewrite L1; apply A2|exact S1]|]. split; [rewrite B3; eapply mset_shape; [exact D2|rewrite L2; apply A2|exact S2]|]. split.
          -- intros x Hx Hn. assert (Q : [x; sneg x] <> [s; sneg s]) by (intro C; apply Hn; left; now rewrite C).
             destruct (B4 x Hx) as [C1 C2]; [intro C; apply Hn; now right|]. rewrite C1, C2. now rewrite !mfind_mset_other by exact Q.
          -- intros x dx Hx [Q|Hin]; [|now apply B5]. pose proof (pair_key _ _ (f_equal fst Q)) as Q1; pose proof (f_equal snd Q) as Q2; cbn [snd] in Q2; subst x dx. destruct (B4 s Hs N1) as [C1 C2]. exists r1, r2. rewrite C1, C2, !mfind_mset_same. auto.
  Qed.
End Loop.

(** ** the two tensors that hold the factors *)
Section Sides.
  Context {S R : Type} {SS : Sym S} {SL : SymLaws S} {RR : Scalar R}.
  Variables (E : @env R) (t : tensor S R) (g1 g2 : list nat) (Q1 Q2 com1 com2 : nat) (p : tensor S R) (e0 e1 : edge S) (c1 c2 : list (S * nat)).
  Notation live := (live t g1 g2). Notation dl := (dl t g1). Notation dr := (dr t g2). Notation km := (km t g1 g2).
  Hypothesis W : wf_tensor t.
  Hypothesis HP : Permutation (t_names t) (g1 ++ g2).
  Hypothesis M : merged_spec t g1 g2 p e0 e1.
  Hypothesis S1 : msorted c1.
  Hypothesis S2 : msorted c2.
  Hypothesis F1 : forall s, mfind s c1 = if live (sneg s) then Some (km (sneg s)) else None.
  Hypothesis F2 : forall s, mfind s c2 = if live s then Some (km s) else None.
  Hypothesis H1 : Q1 <> com1.
  Hypothesis H2 : Q2 <> com2.
  Hypothesis N1 : ~ In com1 g1.
  Hypothesis N2 : ~ In com2 g2.

  Lemma sd_sorted : msorted (emap e0) /\ msorted (emap e1).
  Proof.
    pose proof (wf_maps _ (wf_tcore _ (ms_wf _ _ _ _ _ _ M))) as X. change (c_edges (t_core p)) with (t_edges p) in X. rewrite (ms_edges _ _ _ _ _ _ M) in X.
    inversion X as [|? ? X1 X2]; subst. inversion X2; subst. auto.
  Qed.
  Lemma make_left : exists t1 : tensor S R, make_tensor (env_junk E) [Q1; com1] [e0; mkEdge false c1] false = Ok t1 /\ wf_tensor t1 /\ t_names t1 = [Q1; com1] /\ t_edges t1 = [e0; mkEdge false c1] /\
    sized t g1 g2 (t_blocks t1) (fun s => dl s * km s).
  Proof.
    destruct sd_sorted as [X0 X1]. destruct (make_two (env_junk E) Q1 com1 e0 (mkEdge false c1) H1 X0 S1) as [t1 [A1 [A2 [A3 [A4 A5]]]]].
    - intro s. unfold mmem. cbn [emap]. rewrite (ms_e0 _ _ _ _ _ _ M), F1, sneg_invol. now destruct (live s).
    - exists t1. split; [exact A1|]. split; [exact A2|]. split; [exact A3|]. split; [exact A4|]. intros s Hs. apply A5; [now rewrite (ms_e0 _ _ _ _ _ _ M), Hs|]. cbn [emap]. now rewrite F1, sneg_invol, Hs.
  Qed.
  Lemma make_right : exists t2 : tensor S R, make_tensor (env_junk E) [com2; Q2] [mkEdge false c2; e1] false = Ok t2 /\ wf_tensor t2 /\ t_names t2 = [com2; Q2] /\ t_edges t2 = [mkEdge false c2; e1] /\
    sized t g1 g2 (t_blocks t2) (fun s => km s * dr s).
  Proof.
    destruct sd_sorted as [X0 X1]. destruct (make_two (env_junk E) com2 Q2 (mkEdge false c2) e1 (fun C => H2 (eq_sym C)) S2 X1) as [t2 [A1 [A2 [A3 [A4 A5]]]]].
    - intro s. unfold mmem. cbn [emap]. rewrite (ms_e1 _ _ _ _ _ _ M), F2, sneg_invol. now destruct (live s).
    - exists t2. split; [exact A1|]. split; [exact A2|]. split; [exact A3|]. split; [exact A4|]. intros s Hs. apply A5; [cbn [emap]; now rewrite F2, Hs|]. now rewrite (ms_e1 _ _ _ _ _ _ M), sneg_invol, Hs.
  Qed.

  Definition block_at (b : list (list S * list R)) (s : S) : list R := match mfind [s; sneg s] b with Some d => d | None => [] end.
  Lemma shape_sized : forall b b' f, shape b' = shape b -> sized t g1 g2 b f -> forall s, live s = true -> mfind [s; sneg s] b' = Some (block_at b' s).
  Proof.
    intros b b' f Hs Hz s Hl. destruct (Hz s Hl) as [d [D _]]. unfold block_at. destruct (mfind [s; sneg s] b') as [x|] eqn:Q; [reflexivity|].
    apply mfind_None in Q. rewrite <- shape_keys, Hs, shape_keys in Q. apply mfind_In_key in D. contradiction.
  Qed.
  Lemma reshaped : forall (t1 : tensor S R) (b : list (list S * list R)), wf_tensor t1 -> shape b = shape (t_blocks t1) -> wf_tensor (mkTensor (t_names t1) (mkCore (t_edges t1) b)).
  Proof. intros t1 b [A1 A2 A3] Hs. constructor; [|exact A2|exact A3]. apply (shape_wf (t_core t1)); [exact A1|reflexivity|exact Hs]. Qed.

  (** what the last call of edge_operator may do *)
  Record splitting (A : nat) (c : nat) (g : list nat) (right' : bool) (a : @eo_args S) : Prop := {
    sp_ren : a_rename a = []; sp_split : a_split a = [(A, parts t g)]; sp_merge : a_merge a = []; sp_new : a_new_names a = if right' then g ++ [c] else c :: g;
    sp_par : a_apply_parity a = false; sp_x1 : a_ex_split a = []; sp_x2 : forall n, In n (a_ex_rev a) -> n = c; sp_x3 : a_ex_rev_merge a = []; sp_x4 : a_ex_merge a = [];
    sp_rev : is_fermi = true -> forall n, In n g -> mem_name n (a_reversed a) = earrow (edge_named (tlegs t) n) }.

  Lemma left_factor : forall (t1 : tensor S R) b right' a, wf_tensor t1 -> t_names t1 = [Q1; com1] -> t_edges t1 = [e0; mkEdge false c1] -> shape b = shape (t_blocks t1) -> sized t g1 g2 (t_blocks t1) (fun s => dl s * km s) ->
    splitting Q1 com1 g1 right' a -> (a_cut a = [] \/ a_cut a = [(com1, [])]) ->
    exists X, edge_operator E (mkTensor (t_names t1) (mkCore (t_edges t1) b)) a = Ok X /\
      factor t X g1 g2 com1 right' (mem_name com1 (a_reversed a)) (xorb (negb right') (mem_name com1 (a_reversed a) && mem_name com1 (a_ex_rev a))) (fun s => km (sneg s))
        (fun s i j => nth (i * km (sneg s) + j) (block_at b (sneg s)) rzero).
  Proof.
    intros t1 b right' a Wt Hn He Hs Hz SP Hcut. pose proof (reshaped t1 b Wt Hs) as Wp. rewrite Hn, He in *.
    assert (Hcut' : a_cut a = [] \/ exists cm, a_cut a = [(com1, cm)]) by (destruct Hcut; eauto).
    destruct (side_factor E t g1 g2 Q1 com1 e0 (mkEdge false c1) b true a right' (fun s => km (sneg s)) (fun s => block_at b (sneg s)) W HP Wp H1 N1) as [X [X1 X2]]; try apply SP; auto.
    - intro s. apply (ms_e0 _ _ _ _ _ _ M).
    - intro s. cbn [emap]. rewrite F1. unfold TwoFactor.live at 1. now rewrite sneg_invol.
    - intros s P1 P2. pose proof (shape_sized _ b _ Hs Hz (sneg s)) as Q. rewrite sneg_invol in Q. apply Q. unfold TwoFactor.live. now rewrite sneg_invol, P1, P2.
    - intros F n Hn' V. rewrite (sp_rev _ _ _ _ _ SP F n Hn'), (ms_a0 _ _ _ _ _ _ M F n Hn' V). apply xorb_false_r.
    - exists X. split; [exact X1|]. eapply factor_ext; [exact X2|..]; try reflexivity. intros _. cbn [earrow]. rewrite xorb_false_r. auto.
  Qed.
  Lemma right_factor : forall (t2 : tensor S R) b right' a, wf_tensor t2 -> t_names t2 = [com2; Q2] -> t_edges t2 = [mkEdge false c2; e1] -> shape b = shape (t_blocks t2) -> sized t g1 g2 (t_blocks t2) (fun s => km s * dr s) ->
    splitting Q2 com2 g2 right' a -> (a_cut a = [] \/ a_cut a = [(com2, [])]) ->
    exists X, edge_operator E (mkTensor (t_names t2) (mkCore (t_edges t2) b)) a = Ok X /\
      factor t X g2 g1 com2 right' (mem_name com2 (a_reversed a)) (xorb right' (mem_name com2 (a_reversed a) && mem_name com2 (a_ex_rev a))) km
        (fun s i j => nth (j * dr s + i) (block_at b s) rzero).
  Proof.
    intros t2 b right' a Wt Hn He Hs Hz SP Hcut. pose proof (reshaped t2 b Wt Hs) as Wp. rewrite Hn, He in *.
    assert (HP' : Permutation (t_names t) (g2 ++ g1)) by (etransitivity; [exact HP|apply Permutation_app_comm]).
    assert (Hcut' : a_cut a = [] \/ exists cm, a_cut a = [(com2, cm)]) by (destruct Hcut; eauto).
    destruct (side_factor E t g2 g1 Q2 com2 e1 (mkEdge false c2) b false a right' km (fun s => block_at b s) W HP' Wp H2 N2) as [X [X1 X2]]; try apply SP; auto.
    - intro s. rewrite (ms_e1 _ _ _ _ _ _ M), live_neg. unfold TwoFactor.dr. now rewrite sneg_invol.
    - intro s. cbn [emap]. rewrite F2. unfold TwoFactor.live. now rewrite andb_comm.
    - intros s P1 P2. apply (shape_sized _ b _ Hs Hz). unfold TwoFactor.live. now rewrite P1, P2.
    - intros F n Hn' V. rewrite (sp_rev _ _ _ _ _ SP F n Hn'), (ms_a1 _ _ _ _ _ _ M F n Hn' V). apply xorb_false_r.
    - exists X. split; [exact X1|]. eapply factor_ext; [exact X2|..]; try reflexivity. intros _. cbn [earrow]. rewrite xorb_false_r. now destruct right'.
  Qed.
End Sides.

(** ** the product of the factors *)
Section Product.
  Context {S R : Type} {SS : Sym S} {SL : SymLaws S} {RR : Scalar R}.
  Hypothesis EA : exact_arithmetic R.
  Variables (t : tensor S R) (g1 g2 : list nat) (p : tensor S R) (e0 e1 : edge S) (m1 m2 : S -> nat -> nat -> R).
  Notation live := (live t g1 g2). Notation dl := (dl t g1). Notation dr := (dr t g2). Notation km := (km t g1 g2).
  Hypothesis W : wf_tensor t.
  Hypothesis HP : Permutation (t_names t) (g1 ++ g2).
  Hypothesis M : merged_spec t g1 g2 p e0 e1.
  Hypothesis HF : forall s data, live s = true -> In ([s; sneg s], data) (t_blocks p) -> forall i j, i < dl s -> j < dr s ->
    nth (i * dr s + j) data rzero = rsum (map (fun l => rmul (m1 s i l) (m2 s l j)) (seq 0 (km s))).

  Lemma pr_sum : forall pos pt, assigns pos (t_names t) pt -> valid_pt (t_core t) pt -> let s := total (map (coord pos) g1) in
    total (map (coord pos) g2) = sneg s /\
    rsum (map (fun l => rmul (m1 s (snd (joined (tlegs t) g1 pos)) l) (m2 s l (snd (joined (tlegs t) g2 pos)))) (seq 0 (km s))) =
    signed ropp (exchanged_odd (leg_odd pos) (t_names t) (g1 ++ g2)) (element t pos).
  Proof.
    intros pos pt Ha Hv s. destruct (tf_incl t g1 g2 HP) as [I1 I2].
    assert (T2 : total (map (coord pos) g2) = sneg s).
    { assert (Z : sadd s (total (map (coord pos) g2)) = szero); [|now apply sadd_eq_0 in Z].
      rewrite <- (proj2 Hv), (assigns_coord pos _ pt Ha). unfold s, total. rewrite <- ssum_app, <- !map_app. apply ssum_perm. do 2 apply Permutation_map. now apply Permutation_sym. }
    split; [exact T2|].
    pose proof (mp_range t W pos pt g1 Ha (proj1 Hv) I1) as R1. pose proof (mp_range t W pos pt g2 Ha (proj1 Hv) I2) as R2.
    assert (Hl : live s = true).
    { unfold TwoFactor.live. apply andb_true_iff. split; [apply (present_point _ _ (mp_sorted t W g1 I1) R1)|]. rewrite <- T2. apply (present_point _ _ (mp_sorted t W g2 I2) R2). }
    destruct (ms_block _ _ _ _ _ _ M s Hl) as [data [D1 [D2 D3]]]. rewrite <- (D3 pos pt Ha Hv eq_refl). apply mfind_In in D1.
    symmetry. apply (HF s data Hl D1).
    - apply (fuse_bound _ _ (mp_sorted t W g1 I1) R1).
    - pose proof (fuse_bound _ _ (mp_sorted t W g2 I2) R2) as X. unfold TwoFactor.dr. rewrite <- T2. exact X.
  Qed.
  Lemma pr_left : forall pos pt, assigns pos (t_names t) pt -> valid_pt (t_core t) pt -> let s := total (map (coord pos) g2) in
    rsum (map (fun j => rmul (m1 (sneg s) (snd (joined (tlegs t) g1 pos)) j) (m2 (sneg s) j (snd (joined (tlegs t) g2 pos)))) (seq 0 (km (sneg s)))) =
    signed ropp (exchanged_odd (leg_odd pos) (t_names t) (g1 ++ g2) + (if false && sodd s then 1 else 0)) (element t pos).
  Proof.
    intros pos pt Ha Hv s. destruct (pr_sum pos pt Ha Hv) as [T X]. cbn [andb]. rewrite Nat.add_0_r, <- X. unfold s. rewrite T, sneg_invol. reflexivity.
  Qed.
  Lemma pr_right : forall pos pt, assigns pos (t_names t) pt -> valid_pt (t_core t) pt -> let s := total (map (coord pos) g1) in
    rsum (map (fun j => rmul (m2 s j (snd (joined (tlegs t) g2 pos))) (m1 (sneg (sneg s)) (snd (joined (tlegs t) g1 pos)) j)) (seq 0 (km s))) =
    signed ropp (exchanged_odd (leg_odd pos) (t_names t) (g2 ++ g1) + (if true && sodd s then 1 else 0)) (element t pos).
  Proof.
    intros pos pt Ha Hv s. destruct (pr_sum pos pt Ha Hv) as [T X]. rewrite sneg_invol. etransitivity.
    { etransitivity; [|exact X]. apply rsum_ext. intros j _. apply (ea_mul_comm _ EA). }
    apply signed_parity. cbn [andb]. rewrite odd_plus.
    assert (ND : NoDup (g1 ++ g2)) by (eapply Permutation_NoDup; [exact HP|apply W]).
    rewrite (exchanged_compose _ (t_names t) (g1 ++ g2) (g2 ++ g1)); [|apply W|exact HP|apply Permutation_app_comm].
    rewrite exchange_groups by exact ND.
    assert (Hpos : forall l, incl l (t_names t) -> forall n, In n l -> mfind n pos <> None).
    { intros l Il n Hn. apply Il in Hn. unfold assigns in Ha. clear - Ha Hn. revert pt Ha. induction (t_names t) as [|x l IH]; intros [|y pt] Ha; cbn in *; try discriminate; [destruct Hn|]. injection Ha as A1 A2. destruct Hn as [<-|Hn]; [congruence|]. eapply IH; eauto. }
    destruct (tf_incl t g1 g2 HP) as [I1 I2].
    rewrite <- (odd_total pos g1 (Hpos g1 I1)), <- (odd_total pos g2 (Hpos g2 I2)), T. fold s. rewrite sodd_neg, andb_diag.
    destruct (sodd s); cbn [Nat.odd Nat.even negb]; destruct (Nat.odd _); reflexivity.
  Qed.
End Product.

(** ** the whole function *)
Section Main.
  Context {S R : Type} {SS : Sym S} {SL : SymLaws S} {RR : Scalar R}.
  Notation entry := (S * nat)%type.
  Hypothesis EA : exact_arithmetic R.
  Variable L : qr_lapack R.
  Hypothesis HL : qr_sound L.
  Variables (E : @env R) (I : qr_names) (t : tensor S R) (direction : ascii) (free : list nat) (cq cr : nat).
  Let qn := q_legs direction free t.
  Let rn := r_legs direction free t.
  Hypothesis W : wf_tensor t.
  Hypothesis HD : known_direction direction = true.
  Hypothesis HQ : i_qr_1 I <> i_qr_2 I.
  Hypothesis Hq : cq <> i_qr_1 I /\ cq <> i_qr_2 I.
  Hypothesis Hr : cr <> i_qr_1 I /\ cr <> i_qr_2 I.
  Hypothesis Nq : ~ In cq qn.
  Hypothesis Nr : ~ In cr rn.
  Hypothesis HG : is_fermi = true -> group_arrow_known (env_arrow E) t qn /\ group_arrow_known (env_arrow E) t rn.

  Definition kq (s : S) : nat := Nat.min (merged_dim (mp t qn) (sneg s)) (merged_dim (mp t rn) s).
  Definition kr (s : S) : nat := Nat.min (merged_dim (mp t rn) (sneg s)) (merged_dim (mp t qn) s).
  Record qr_spec (q r : tensor S R) (lq lr sq sr sw : bool) (mq mr : S -> nat -> nat -> R) : Prop := {
    qr_q : factor t q qn rn cq lq true sq kq mq;
    qr_r : factor t r rn qn cr lr false sr kr mr;
    qr_ord : lr = negb lq;
    qr_sgn : xorb (xorb sq (negb lq)) (xorb (xorb sr lr) sw) = false;
    qr_mul : forall pos pt, assigns pos (t_names t) pt -> valid_pt (t_core t) pt -> let s := total (map (coord pos) rn) in
      rsum (map (fun j => rmul (mq s (snd (joined (tlegs t) qn pos)) j) (mr (sneg s) (snd (joined (tlegs t) rn pos)) j)) (seq 0 (kq s))) =
      signed ropp (exchanged_odd (leg_odd pos) (t_names t) (qn ++ rn) + (if sw && sodd s then 1 else 0)) (element t pos);
    qr_iso : forall s, present (mp t qn) (sneg s) = true -> present (mp t rn) s = true -> forall a b, a < kq s -> b < kq s ->
      rsum (map (fun i => rmul (rconj (mq s i a)) (mq s i b)) (seq 0 (merged_dim (mp t qn) (sneg s)))) = ident a b;
    qr_tri : forall s, present (mp t rn) (sneg s) = true -> present (mp t qn) s = true -> forall i j, i < j -> j < kr s -> mr s i j = rzero }.

  Lemma side_split : forall f : nat -> bool, Permutation (t_names t) (filter (fun n => negb (f n)) (t_names t) ++ filter f (t_names t)).
  Proof.
    intro f. induction (t_names t) as [|x l IH]; [constructor|]. cbn [filter]. destruct (f x); cbn [negb].
    - apply Permutation_cons_app. exact IH.
    - cbn [app]. now constructor.
  Qed.
  Lemma qr_perm : Permutation (t_names t) (qn ++ rn).
  Proof.
    unfold qn, rn, q_legs, r_legs. destruct (names_are_of_r direction).
    - apply (side_split (fun n => member n free)).
    - pose proof (side_split (fun n => negb (member n free))) as X. erewrite (filter_ext _ (fun n => member n free)) in X; [exact X|]. intro n. apply negb_involutive.
  Qed.
  (** legs chosen by name *)
  Lemma legs_fst : forall f : nat -> bool, map fst (filter (fun ne => f (fst ne)) (tlegs t)) = filter f (t_names t).
  Proof.
    intro f. pose proof (wf_rank _ W) as Lr. revert Lr. generalize (t_edges t). induction (t_names t) as [|x l IH]; intros [|e es] Lr; cbn in *; try discriminate; [reflexivity|].
    destruct (f x); cbn [map fst]; rewrite IH by (now injection Lr); reflexivity.
  Qed.
  Lemma legs_parts : forall f : nat -> bool, map (fun ne => (fst ne, mkEdge false (emap (snd ne)))) (filter (fun ne => f (fst ne)) (tlegs t)) = parts t (filter f (t_names t)).
  Proof.
    intro f. unfold parts. rewrite <- (legs_fst f), map_map. apply map_ext_in. intros [n e] Hin. cbn [fst snd]. apply filter_In in Hin as [Hin _]. now rewrite (leg_named t n e W Hin).
  Qed.
  Lemma legs_rev : forall (f : nat -> bool) n, In n (filter f (t_names t)) -> mem_name n (map fst (filter (fun ne => earrow (snd ne)) (filter (fun ne => f (fst ne)) (tlegs t)))) = earrow (edge_named (tlegs t) n).
  Proof.
    intros f n Hn. apply filter_In in Hn as [Hn Hf]. destruct (leg_of_name t n W Hn) as [e He]. rewrite (leg_named t n e W He).
    destruct (earrow e) eqn:A.
    - apply mem_name_In. apply in_map_iff. exists (n, e). split; [reflexivity|]. apply filter_In. split; [|exact A]. apply filter_In. now split.
    - apply mem_name_false. intro C. apply in_map_iff in C as [[n' e'] [C1 C2]]. cbn [fst] in C1. subst n'. apply filter_In in C2 as [C2 C3]. apply filter_In in C2 as [C2 _]. cbn [snd] in C3.
      assert (e' = e) by (pose proof (leg_named t n e W He); pose proof (leg_named t n e' W C2); congruence). congruence.
  Qed.
  Lemma legs_rev_not : forall (f : nat -> bool) n, ~ In n (filter f (t_names t)) -> mem_name n (map fst (filter (fun ne => earrow (snd ne)) (filter (fun ne => f (fst ne)) (tlegs t)))) = false.
  Proof.
    intros f n Hn. apply mem_name_false. intro C. apply Hn. rewrite <- legs_fst. apply in_map_iff in C as [ne [<- C]]. apply filter_In in C as [C _]. now apply in_map.
  Qed.
  Lemma legs_all : forall n, In n (t_names t) -> mem_name n (map fst (filter (fun ne => earrow (snd ne)) (tlegs t))) = earrow (edge_named (tlegs t) n).
  Proof.
    intros n Hn. pose proof (legs_rev (fun _ => true) n) as X. assert (T : forall A (l : list A), filter (fun _ => true) l = l) by (clear; intros A l; induction l; cbn; congruence). rewrite !T in X. now apply X.
  Qed.
  Lemma km_min : forall g1 g2 s, km t g1 g2 s = Nat.min (merged_dim (mp t g1) s) (merged_dim (mp t g2) (sneg s)).
  Proof. intros g1 g2 s. unfold km, dl, dr. generalize (merged_dim (mp t g2) (sneg s)) (merged_dim (mp t g1) s). clear. intros a b. destruct (Nat.ltb_spec a b); lia. Qed.

  Theorem qr_factors :
    (exists msg, qr L E I t direction free cq cr = Throw (RuntimeError msg) /\ ~ qr_never_fails L) \/
    exists q r lq lr sq sr sw mq mr, qr L E I t direction free cq cr = Ok (q, r) /\ qr_spec q r lq lr sq sr sw mq mr.
  Proof.
    unfold qr.
    assert (Hdir : (if (Ascii.eqb direction "r" || Ascii.eqb direction "R")%char then Ok true else if (Ascii.eqb direction "q" || Ascii.eqb direction "Q")%char then Ok false else tat_error "Invalid direction in QR") = Ok (names_are_of_r direction)).
    { unfold known_direction, names_are_of_r in *. destruct (Ascii.eqb direction "r" || Ascii.eqb direction "R")%char; [reflexivity|]. cbn [orb] in HD. now rewrite HD. }
    rewrite Hdir. cbn [bind]. clear Hdir. cbv zeta.
    set (use_qr := is_nil (t_names t) || Bool.eqb (mem_name (last (t_names t) 0) free) (names_are_of_r direction)).
    set (second := fun n => Bool.eqb (Bool.eqb (mem_name n free) (names_are_of_r direction)) use_qr).
    set (g1 := if use_qr then qn else rn). set (g2 := if use_qr then rn else qn).
    assert (G1 : filter (fun n => negb (second n)) (t_names t) = g1).
    { unfold g1, qn, rn, q_legs, r_legs, second. change mem_name with member. destruct use_qr; apply filter_ext; intro n; destruct (names_are_of_r direction), (member n free); reflexivity. }
    assert (G2 : filter second (t_names t) = g2).
    { unfold g2, qn, rn, q_legs, r_legs, second. change mem_name with member. destruct use_qr; apply filter_ext; intro n; destruct (names_are_of_r direction), (member n free); reflexivity. }
    set (legs1 := filter (fun ne => negb (Bool.eqb (Bool.eqb (mem_name (fst ne) free) (names_are_of_r direction)) use_qr)) (tlegs t)).
    set (legs2 := filter (fun ne => Bool.eqb (Bool.eqb (mem_name (fst ne) free) (names_are_of_r direction)) use_qr) (tlegs t)).
    assert (L1 : map fst legs1 = g1) by (rewrite <- G1; apply (legs_fst (fun n => negb (second n)))).
    assert (L2 : map fst legs2 = g2) by (rewrite <- G2; apply (legs_fst second)).
    assert (P1 : map (fun ne => (fst ne, mkEdge false (emap (snd ne)))) legs1 = parts t g1) by (rewrite <- G1; apply (legs_parts (fun n => negb (second n)))).
    assert (P2 : map (fun ne => (fst ne, mkEdge false (emap (snd ne)))) legs2 = parts t g2) by (rewrite <- G2; apply (legs_parts second)).
    rewrite L1, L2, P1, P2.
    set (com1 := if use_qr then cq else cr). set (com2 := if use_qr then cr else cq).
    set (rev1 := if is_fermi then map fst (filter (fun ne => earrow (snd ne)) legs1) else []).
    set (rev2 := if is_fermi then map fst (filter (fun ne => earrow (snd ne)) legs2) else []).
    set (rev := if is_fermi then map fst (filter (fun ne => earrow (snd ne)) (tlegs t)) else []).
    assert (HP : Permutation (t_names t) (g1 ++ g2)).
    { unfold g1, g2. destruct use_qr; [exact qr_perm|]. etransitivity; [exact qr_perm|apply Permutation_app_comm]. }
    assert (HG' : is_fermi = true -> group_arrow_known (env_arrow E) t g1 /\ group_arrow_known (env_arrow E) t g2) by (intro F; destruct (HG F); unfold g1, g2; destruct use_qr; auto).
    assert (Hrev : is_fermi = true -> forall n, In n (t_names t) -> mem_name n rev = earrow (edge_named (tlegs t) n)) by (intros F n Hn; unfold rev; rewrite F; now apply legs_all).
    destruct (merged_ok E t g1 g2 (i_qr_1 I) (i_qr_2 I) rev W HP HQ HG' Hrev) as [p [e0 [e1 [M1 M]]]].
    change (mkArgs [] [] rev (of_list [(i_qr_1 I, g1); (i_qr_2 I, g2)]) [i_qr_1 I; i_qr_2 I] false [] [] [] [] []) with (@merge_args S g1 g2 (i_qr_1 I) (i_qr_2 I) rev).
    rewrite M1. cbn [bind]. destruct (common_ok t g1 g2 p e0 e1 M) as [c1 [c2 [C1 [C2 [C3 [C4 C5]]]]]]. rewrite C1. cbn [bind]. rewrite (ms_edges _ _ _ _ _ _ M). cbn [nth_error get_or_ub bind fst snd].
    assert (Hc1 : i_qr_1 I <> com1) by (unfold com1; destruct use_qr; intro C; symmetry in C; tauto).
    assert (Hc2 : i_qr_2 I <> com2) by (unfold com2; destruct use_qr; intro C; symmetry in C; tauto).
    assert (Hn1 : ~ In com1 g1) by (unfold com1, g1; destruct use_qr; assumption).
    assert (Hn2 : ~ In com2 g2) by (unfold com2, g2; destruct use_qr; assumption).
    destruct (make_left E t g1 g2 (i_qr_1 I) com1 p e0 e1 c1 M C2 C4 Hc1) as [t1 [A1 [A2 [A3 [A4 A5]]]]].
    destruct (make_right E t g1 g2 (i_qr_2 I) com2 p e0 e1 c2 M C3 C5 Hc2) as [t2 [B1 [B2 [B3 [B4 B5]]]]].
    rewrite A1. cbn [bind]. rewrite B1. cbn [bind]. rewrite A4, B4. cbn [nth_error get_or_ub bind].
    assert (Hbl : forall kb, In kb (t_blocks p) -> exists s, fst kb = [s; sneg s] /\ live t g1 g2 s = true /\ length (snd kb) = dl t g1 s * dr t g2 s).
    { intros [k d] Hkb. destruct (ms_keys _ _ _ _ _ _ M k) as [s [-> Hs]]; [apply in_map_iff; exists (k, d); auto|]. exists s. split; [reflexivity|]. split; [exact Hs|].
      destruct (ms_block _ _ _ _ _ _ M s Hs) as [d' [D1 [D2 _]]]. pose proof (ms_wf _ _ _ _ _ _ M) as Wp. apply In_mfind in Hkb; [|apply (wf_blocks_sorted _ (wf_tcore _ Wp))]. cbn [snd]. congruence. }
    destruct (qr_loop EA L HL t g1 g2 e0 e1 (env_junk E) use_qr (ms_e0 _ _ _ _ _ _ M) (ms_e1 _ _ _ _ _ _ M) (t_blocks p) (t_blocks t1) (t_blocks t2)) as [[msg [X1 X2]]|[b1 [b2 [X1 [X2 [X3 [_ X5]]]]]]]; auto.
    { apply (wf_blocks_sorted _ (wf_tcore _ A2)). } { apply (wf_blocks_sorted _ (wf_tcore _ B2)). }
    { apply msorted_nodup, (wf_blocks_sorted _ (wf_tcore _ (ms_wf _ _ _ _ _ _ M))). }
    { left. exists msg. rewrite X1. split; [reflexivity|exact X2]. }
    right. rewrite X1. cbn [bind fst snd].
    assert (HF : forall s data, live t g1 g2 s = true -> In ([s; sneg s], data) (t_blocks p) -> factored (dl t g1 s) (dr t g2 s) (km t g1 g2 s) data (block_at b1 s) (block_at b2 s) /\ is_qr use_qr (dl t g1 s) (dr t g2 s) (km t g1 g2 s) (block_at b1 s) (block_at b2 s)).
    { intros s data Hs Hin. destruct (X5 s data Hs Hin) as [d1 [d2 [Y1 [Y2 [Y3 Y4]]]]]. unfold block_at. rewrite Y1, Y2. auto. }
    assert (HF1 : forall s, live t g1 g2 s = true -> is_qr use_qr (dl t g1 s) (dr t g2 s) (km t g1 g2 s) (block_at b1 s) (block_at b2 s)).
    { intros s Hs. destruct (ms_block _ _ _ _ _ _ M s Hs) as [d [D1 _]]. apply mfind_In in D1. now apply (HF s d). }
    match goal with |- context [edge_operator E (mkTensor _ (mkCore _ b1)) ?a] => set (a1 := a) end.
    match goal with |- context [edge_operator E (mkTensor _ (mkCore _ b2)) ?a] => set (a2 := a) end.
    assert (SP1 : splitting t (i_qr_1 I) com1 g1 true a1).
    { constructor; try reflexivity; [intros n []|]. intros F n Hn. unfold a1. cbn [a_reversed]. rewrite F. cbn [andb].
      assert (Q : mem_name n rev1 = earrow (edge_named (tlegs t) n)) by (unfold rev1; rewrite F; apply (legs_rev (fun n => negb (second n))); now rewrite G1).
      clearbody use_qr. unfold com1, g1 in *. destruct use_qr; [|exact Q]. cbn [mem_name existsb]. destruct (Nat.eqb_spec n cq) as [->|_]; [contradiction|exact Q]. }
    assert (SP2 : splitting t (i_qr_2 I) com2 g2 false a2).
    { constructor; try reflexivity; [intros n Hn|].
      - unfold a2, com2 in *. cbn [a_ex_rev] in Hn. destruct use_qr; [destruct Hn|destruct Hn as [<-|[]]; reflexivity].
      - intros F n Hn. unfold a2. cbn [a_reversed]. rewrite F. cbn [andb].
        assert (Q : mem_name n rev2 = earrow (edge_named (tlegs t) n)) by (unfold rev2; rewrite F; apply (legs_rev second); now rewrite G2).
        clearbody use_qr. unfold com2, g2 in *. destruct use_qr; cbn [negb]; [exact Q|]. cbn [mem_name existsb]. destruct (Nat.eqb_spec n cq) as [->|_]; [contradiction|exact Q]. }
    destruct (left_factor E t g1 g2 (i_qr_1 I) com1 p e0 e1 c1 W HP M C4 Hc1 Hn1 t1 b1 true a1 A2 A3 A4 X2 A5 SP1 (or_introl eq_refl)) as [n1 [U1 U2]].
    destruct (right_factor E t g1 g2 (i_qr_2 I) com2 p e0 e1 c2 W HP M C5 Hc2 Hn2 t2 b2 false a2 B2 B3 B4 X3 B5 SP2 (or_introl eq_refl)) as [n2 [V1 V2]].
    rewrite A4 in U1. rewrite B4 in V1. rewrite U1. cbn [bind]. rewrite V1. cbn [bind].
    pose proof (pr_left t g1 g2 p e0 e1 (fun s i l => nth (i * km t g1 g2 s + l) (block_at b1 s) rzero) (fun s l j => nth (l * dr t g2 s + j) (block_at b2 s) rzero) W HP M (fun s d H1 H2 => fa_mul _ _ _ _ _ _ (proj1 (HF s d H1 H2)))) as PL.
    pose proof (pr_right EA t g1 g2 p e0 e1 (fun s i l => nth (i * km t g1 g2 s + l) (block_at b1 s) rzero) (fun s l j => nth (l * dr t g2 s + j) (block_at b2 s) rzero) W HP M (fun s d H1 H2 => fa_mul _ _ _ _ _ _ (proj1 (HF s d H1 H2)))) as PR.
    assert (R1 : is_fermi = true -> mem_name com1 (a_reversed a1) = use_qr).
    { intro F. unfold a1. cbn [a_reversed]. rewrite F. cbn [andb]. assert (Q : mem_name com1 rev1 = false) by (unfold rev1; rewrite F; apply (legs_rev_not (fun n => negb (second n))); now rewrite G1).
      clearbody use_qr. unfold com1 in *. destruct use_qr; [|exact Q]. cbn [mem_name existsb]. now rewrite Nat.eqb_refl. }
    assert (R2 : is_fermi = true -> mem_name com2 (a_reversed a2) = negb use_qr).
    { intro F. unfold a2. cbn [a_reversed]. rewrite F. cbn [andb]. assert (Q : mem_name com2 rev2 = false) by (unfold rev2; rewrite F; apply (legs_rev_not second); now rewrite G2).
      clearbody use_qr. unfold com2 in *. destruct use_qr; cbn [negb]; [exact Q|]. cbn [mem_name existsb]. now rewrite Nat.eqb_refl. }
    assert (Z1 : mem_name com1 (a_ex_rev a1) = false) by reflexivity.
    assert (Z2 : mem_name com2 (a_ex_rev a2) = negb use_qr).
    { unfold a2, com2. cbn [a_ex_rev]. destruct use_qr; [reflexivity|]. cbn [mem_name existsb negb]. now rewrite Nat.eqb_refl. }
    clearbody use_qr a1 a2. clear - U2 V2 PL PR R1 R2 Z1 Z2 HF1 SL. subst g1 g2 com1 com2. destruct use_qr.
    - (* Q on the left *)
      exists n1, n2, true, false, false, false, false, (fun s i j => nth (i * kq s + j) (block_at b1 (sneg s)) rzero), (fun s i j => nth (j * dr t rn s + i) (block_at b2 s) rzero).
      split; [reflexivity|].
      assert (Kq : forall s, km t qn rn (sneg s) = kq s) by (intro s; rewrite km_min; unfold kq; now rewrite sneg_invol).
      assert (Kr : forall s, km t qn rn s = kr s) by (intro s; rewrite km_min; unfold kr; apply Nat.min_comm).
      constructor.
      + eapply factor_ext; [exact U2|..]; [intro F; rewrite (R1 F), Z1; split; reflexivity|exact Kq|intros s i j; cbv beta; now rewrite Kq].
      + eapply factor_ext; [exact V2|..]; [intro F; rewrite (R2 F), Z2; split; reflexivity|exact Kr|reflexivity].
      + reflexivity.
      + reflexivity.
      + intros pos pt Ha Hv. specialize (PL pos pt Ha Hv). cbv zeta in *. now rewrite Kq in PL.
      + intros s Q1 Q2 a b Ha Hb. assert (Hl : live t qn rn (sneg s) = true) by (unfold live; now rewrite sneg_invol, Q1, Q2).
        destruct (HF1 _ Hl) as [Y _]. rewrite Kq in Y. apply (Y a b Ha Hb).
      + intros s Q1 Q2 i j Hij Hj. assert (Hl : live t qn rn s = true) by (unfold live; now rewrite Q1, Q2).
        destruct (HF1 _ Hl) as [_ Y]. apply (Y j i); [now rewrite Kr|exact Hij].
    - (* Q on the right *)
      exists n2, n1, false, true, true, false, true, (fun s i j => nth (j * dr t qn s + i) (block_at b2 s) rzero), (fun s i j => nth (i * kr s + j) (block_at b1 (sneg s)) rzero).
      split; [reflexivity|].
      assert (Kq : forall s, km t rn qn s = kq s) by (intro s; rewrite km_min; unfold kq; apply Nat.min_comm).
      assert (Kr : forall s, km t rn qn (sneg s) = kr s) by (intro s; rewrite km_min; unfold kr; now rewrite sneg_invol).
      constructor.
      + eapply factor_ext; [exact V2|..]; [intro F; rewrite (R2 F), Z2; split; reflexivity|exact Kq|reflexivity].
      + eapply factor_ext; [exact U2|..]; [intro F; rewrite (R1 F), Z1; split; reflexivity|exact Kr|intros s i j; cbv beta; now rewrite Kr].
      + reflexivity.
      + reflexivity.
      + intros pos pt Ha Hv. specialize (PR pos pt Ha Hv). cbv zeta in *. rewrite Kr in PR. rewrite Kq in PR. exact PR.
      + intros s Q1 Q2 a b Ha Hb. assert (Hl : live t rn qn s = true) by (unfold live; now rewrite Q1, Q2).
        destruct (HF1 _ Hl) as [Y _]. rewrite Kq in Y. apply (Y a b Ha Hb).
      + intros s Q1 Q2 i j Hij Hj. assert (Hl : live t rn qn (sneg s) = true) by (unfold live; now rewrite sneg_invol, Q1, Q2).
        destruct (HF1 _ Hl) as [_ Y]. rewrite Kr in Y. apply (Y i j Hij Hj).
  Qed.
End Main.
