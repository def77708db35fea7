(** svd up to the truncation: the loop over the blocks and the two tensors that hold the factors. *)
From Coq Require Import String Ascii List Bool Arith Lia Sorted Permutation.
From Verif Require Import Base.Outcome Base.SMap Model.Symmetry Model.Edge Model.Core Model.Transpose Model.EdgeOperator Model.Contract Model.Qr Model.SvdCut Model.Svd
  Spec.Blocks Spec.Fuse Spec.Sign Spec.Relabel Spec.Contract Spec.FermiContract Spec.Matrix Spec.Lapack Spec.Factor Spec.Truncate Spec.Svd Proof.SymmetryFacts Proof.LoopFacts Proof.CoreFacts Proof.ConstructFacts Proof.ElemFacts Proof.OffsetFacts
  Proof.CopyLoopFacts Proof.GroupFacts Proof.MergeFacts Proof.TableFacts Proof.SumFacts Proof.MatrixFacts Proof.SignFacts Proof.ExchangeFacts Proof.TransposeFacts Proof.TransposeTensor Proof.TransposeNames Proof.EdgeOperatorFacts Proof.NamedOperator Proof.LegFacts Proof.MergeSplit
  Proof.SplitMerged Proof.SplitAll Proof.SplitSome Proof.SplitLeg Proof.RegroupFacts Proof.TwoLegs Proof.ContractPlain Proof.ContractNames Proof.ContractSym Proof.FactorFacts Proof.FactorSides Proof.TwoFactor Proof.QrKernel Proof.QrTensor Proof.SvdKernel.
Import ListNotations.
Local Open Scope list_scope.
Local Notation tlegs t := (combine (t_names t) (t_edges t)).

Section Loop.
  Context {S R V : Type} {SS : Sym S} {SL : SymLaws S} {RR : Scalar R}.
  Hypothesis EA : exact_arithmetic R.
  Hypothesis MA : associative_product R.
  Variables (of_real : V -> R) (vzero : V) (greater : V -> V -> bool).
  Variable gesvd : nat -> nat -> list R -> bool * (list V * list R * list R).
  Hypothesis HS : svd_sound of_real vzero greater gesvd.
  Variables (t : tensor S R) (g1 g2 : list nat).
  Notation live := (live t g1 g2). Notation dl := (dl t g1). Notation dr := (dr t g2). Notation km := (km t g1 g2).
  Variables (e0 e1 : edge S) (junk : R) (vjunk : V) (put : bool).
  Hypothesis He0 : forall s, mfind s (emap e0) = if live s then Some (dl s) else None.
  Hypothesis He1 : forall s, mfind s (emap e1) = if live (sneg s) then Some (dr (sneg s)) else None.

  Lemma mset_same : forall (K A : Type) (OK : Ord K) (OL : OrdLaws K) (m : list (K * A)) k v, msorted m -> mfind k m = Some v -> mset k v m = m.
  Proof.
    clear. intros K A OK OL m k v Hs Hf. apply msorted_ext; [now apply mset_sorted|exact Hs|]. intro x. destruct (ord_dec x k) as [->|N]; [now rewrite mfind_mset_same|now rewrite mfind_mset_other].
  Qed.
  Definition at_key (s : S) : S := if put then sneg s else s.
  Lemma at_key_invol : forall s, at_key (at_key s) = s.
  Proof. intro s. unfold at_key. destruct put; [apply sneg_invol|reflexivity]. Qed.
  Lemma at_key_inj : forall a b, at_key a = at_key b -> a = b.
  Proof. intros a b H. rewrite <- (at_key_invol a), <- (at_key_invol b). now f_equal. Qed.

  Lemma svd_loop : forall bl b1 b2 sing w, msorted b1 -> msorted b2 -> msorted sing -> sized t g1 g2 b1 (fun s => dl s * km s) -> sized t g1 g2 b2 (fun s => km s * dr s) -> NoDup (map fst bl) ->
    (forall kb, In kb bl -> exists s, fst kb = [s; sneg s] /\ live s = true /\ length (snd kb) = dl s * dr s) ->
    exists b1' b2' sing' w', foldM (svd_block gesvd junk vjunk e0 e1 put) bl (b1, b2, sing, w) = Ok (b1', b2', sing', w') /\ shape b1' = shape b1 /\ shape b2' = shape b2 /\ msorted sing' /\
      (w = true -> w' = true) /\ (w' = true -> w = true \/ ~ svd_never_fails gesvd) /\
      (forall s, live s = true -> ~ In [s; sneg s] (map fst bl) -> mfind [s; sneg s] b1' = mfind [s; sneg s] b1 /\ mfind [s; sneg s] b2' = mfind [s; sneg s] b2) /\
      (forall s, ~ In [s; sneg s] (map fst bl) -> mfind (at_key s) sing' = mfind (at_key s) sing) /\
      (forall s data, live s = true -> In ([s; sneg s], data) bl -> exists d1 sv d2, mfind [s; sneg s] b1' = Some d1 /\ mfind [s; sneg s] b2' = Some d2 /\ mfind (at_key s) sing' = Some sv /\
         sized3 (dl s) (dr s) (km s) d1 sv d2 /\ (w' = false -> svd_of of_real vzero greater (dl s) (dr s) (km s) data d1 sv d2)).
  Proof.
    induction bl as [|[key data] bl IH]; intros b1 b2 sing w S1 S2 S3 Z1 Z2 ND Hb.
    - exists b1, b2, sing, w. cbn [foldM]. repeat (split; [auto|]). intros s data _ [].
    - destruct (Hb (key, data) (or_introl eq_refl)) as [s [Ks [Hs Hd]]]. cbn [fst snd] in Ks, Hd. subst key.
      cbn [map fst] in ND. inversion ND as [|? ? N1 N2]; subst.
      destruct (Z1 s Hs) as [d1 [D1 L1]]. destruct (Z2 s Hs) as [d2 [D2 L2]].
      assert (Hb' : forall kb, In kb bl -> exists s, fst kb = [s; sneg s] /\ live s = true /\ length (snd kb) = dl s * dr s) by (intros kb H; apply Hb; now right).
      assert (QB : svd_block gesvd junk vjunk e0 e1 put (b1, b2, sing, w) ([s; sneg s], data) =
        if Nat.eqb (dl s * dr s) 0 then Ok (b1, b2, mset (at_key s) (repeat vjunk (km s)) sing, w) else
        bind (calculate_svd gesvd junk (dl s) (dr s) (km s) data d1 (repeat vjunk (km s)) d2) (fun d => let '(d1, sv, d2, w') := d in
          Ok (mset [s; sneg s] d1 b1, mset [s; sneg s] d2 b2, mset (at_key s) sv sing, w || w'))).
      { unfold svd_block. rewrite D1, D2. cbn [at_or_throw bind nth_error get_or_ub]. rewrite He0, Hs. cbn [at_or_throw bind]. rewrite He1, sneg_invol, Hs. reflexivity. }
      assert (STEP : exists c1 cs c2 w1, svd_block gesvd junk vjunk e0 e1 put (b1, b2, sing, w) ([s; sneg s], data) = Ok (mset [s; sneg s] c1 b1, mset [s; sneg s] c2 b2, mset (at_key s) cs sing, w || w1) /\
        sized3 (dl s) (dr s) (km s) c1 cs c2 /\ (w1 = true -> ~ svd_never_fails gesvd) /\ (w1 = false -> svd_of of_real vzero greater (dl s) (dr s) (km s) data c1 cs c2)).
      { rewrite QB. clear QB. destruct (Nat.eqb_spec (dl s * dr s) 0) as [Z|Z].
        - assert (K0 : km s = 0) by (unfold TwoFactor.km; destruct (Nat.ltb_spec (dr s) (dl s)); nia).
          exists d1, (repeat vjunk (km s)), d2, false. split; [|split; [unfold sized3; rewrite repeat_length; auto|split; [discriminate|]]].
          + rewrite orb_false_r. f_equal. f_equal. f_equal. f_equal; symmetry; apply (mset_same _ _ _ _); assumption.
          + intros _. rewrite K0. constructor; try (intros a b Ha; lia); [intros i j Hi Hj; nia| |intros x []]. intros i j x y _ Hx. cbn in Hx. destruct i; discriminate.
        - destruct (calculate_svd_ok of_real vzero greater EA MA gesvd HS junk (dl s) (dr s) data d1 (repeat vjunk (km s)) d2) as [c1 [cs [c2 [w1 [A1 [A2 [A3 A4]]]]]]]; [nia|nia|exact Hd|unfold sized3; rewrite repeat_length; auto|].
          change (if Nat.ltb (dr s) (dl s) then dr s else dl s) with (km s) in *. exists c1, cs, c2, w1. rewrite A1. cbn [bind]. auto. }
      destruct STEP as [c1 [cs [c2 [w1 [ST [A2 [A3 A4]]]]]]]. cbn [foldM]. rewrite ST. cbn [bind]. destruct A2 as [L1' [L2' L3']].
      destruct (IH (mset [s; sneg s] c1 b1) (mset [s; sneg s] c2 b2) (mset (at_key s) cs sing) (w || w1)) as [b1' [b2' [sing' [w' [B1 [B2 [B3 [B4 [B5 [B6 [B7 [B8 B9]]]]]]]]]]]]; try (now apply mset_sorted); auto.
      { apply sized_mset; auto. } { apply sized_mset; auto. }
      exists b1', b2', sing', w'. split; [exact B1|].
      split; [rewrite B2; eapply mset_shape; [exact D1|lia|exact S1]|]. split; [rewrite B3; eapply mset_shape; [exact D2|lia|exact S2]|]. split; [exact B4|].
      split; [intro Hw; apply B5; now rewrite Hw|]. split; [intro Hw; destruct (B6 Hw) as [X|X]; [|now right]; apply orb_true_iff in X as [X|X]; auto|]. split; [|split].
      + intros x Hx Hn. assert (Q : [x; sneg x] <> [s; sneg s]) by (intro C; apply Hn; left; now rewrite C).
        destruct (B7 x Hx) as [C1 C2]; [intro C; apply Hn; now right|]. rewrite C1, C2. now rewrite !mfind_mset_other by exact Q.
      + intros x Hn. rewrite B8 by (intro C; apply Hn; now right). apply mfind_mset_other. intro C. apply at_key_inj in C. subst x. apply Hn. now left.
      + intros x dx Hx [Q|Hin]; [|now apply B9]. pose proof (pair_key _ _ (f_equal fst Q)) as Q1; pose proof (f_equal snd Q) as Q2; cbn [snd] in Q2; subst x dx.
        destruct (B7 s Hs N1) as [C1 C2]. pose proof (B8 s N1) as C3. exists c1, cs, c2. rewrite C1, C2, C3, !mfind_mset_same. split; [reflexivity|]. split; [reflexivity|]. split; [reflexivity|]. split; [unfold sized3; auto|].
        intro Hw. apply A4. destruct w1; [|reflexivity]. rewrite orb_true_r in B5. rewrite (B5 eq_refl) in Hw. discriminate.
  Qed.
End Loop.

(** ** one of the two tensors *)
Section Side.
  Context {S R : Type} {SS : Sym S} {SL : SymLaws S} {RR : Scalar R}.
  Variable t : tensor S R.
  Definition side_tensor (A c : nat) (right : bool) (eA ec : edge S) (b : list (list S * list R)) : tensor S R :=
    mkTensor (if right then [A; c] else [c; A]) (mkCore (if right then [eA; ec] else [ec; eA]) b).
  Record side_spec (g h : list nat) (A c : nat) (right : bool) (K : S -> nat) (eA ec : edge S) (b : list (list S * list R)) (D : S -> list R) : Prop := {
    si_wf : wf_tensor (side_tensor A c right eA ec b);
    si_eA : forall s, mfind s (emap eA) = if present (mp t g) s && present (mp t h) (sneg s) then Some (merged_dim (mp t g) s) else None;
    si_ec : forall s, mfind s (emap ec) = if present (mp t g) (sneg s) && present (mp t h) s then Some (K s) else None;
    si_D : forall s, present (mp t g) (sneg s) = true -> present (mp t h) s = true -> mfind (if right then [sneg s; s] else [s; sneg s]) b = Some (D s);
    si_dir : earrow ec = false;
    si_arr : is_fermi = true -> forall n, In n g -> arrow_valid (edge_named (tlegs t) n) = true -> earrow eA = false }.
  Lemma side_ext : forall g h A c right K K' eA ec b D, side_spec g h A c right K eA ec b D -> (forall s, K s = K' s) -> side_spec g h A c right K' eA ec b D.
  Proof. intros g h A c right K K' eA ec b D H Q. constructor; try apply H. intro s. rewrite <- Q. apply H. Qed.

  Variables (g1 g2 : list nat) (Q1 Q2 com1 com2 : nat) (p : tensor S R) (e0 e1 : edge S) (c1 c2 : list (S * nat)).
  Notation live := (live t g1 g2). Notation dl := (dl t g1). Notation dr := (dr t g2). Notation km := (km t g1 g2).
  Hypothesis M : merged_spec t g1 g2 p e0 e1.
  Hypothesis F1 : forall s, mfind s c1 = if live (sneg s) then Some (km (sneg s)) else None.
  Hypothesis F2 : forall s, mfind s c2 = if live s then Some (km s) else None.
  Lemma left_side : forall (t1 : tensor S R) b, wf_tensor t1 -> t_names t1 = [Q1; com1] -> t_edges t1 = [e0; mkEdge false c1] -> shape b = shape (t_blocks t1) -> sized t g1 g2 (t_blocks t1) (fun s => dl s * km s) ->
    side_spec g1 g2 Q1 com1 true (fun s => km (sneg s)) e0 (mkEdge false c1) b (fun s => block_at b (sneg s)).
  Proof.
    intros t1 b Wt Hn He Hs Hz. pose proof (reshaped t1 b Wt Hs) as Wp. rewrite Hn, He in Wp. constructor; auto.
    - intro s. apply (ms_e0 _ _ _ _ _ _ M).
    - intro s. cbn [emap]. rewrite F1. unfold TwoFactor.live at 1. now rewrite sneg_invol.
    - intros s P1 P2. pose proof (shape_sized t g1 g2 _ b _ Hs Hz (sneg s)) as Q. rewrite sneg_invol in Q. apply Q. unfold TwoFactor.live. now rewrite sneg_invol, P1, P2.
    - intros F n Hn' V. apply (ms_a0 _ _ _ _ _ _ M F n Hn' V).
  Qed.
  Lemma right_side : forall (t2 : tensor S R) b, wf_tensor t2 -> t_names t2 = [com2; Q2] -> t_edges t2 = [mkEdge false c2; e1] -> shape b = shape (t_blocks t2) -> sized t g1 g2 (t_blocks t2) (fun s => km s * dr s) ->
    side_spec g2 g1 Q2 com2 false km e1 (mkEdge false c2) b (fun s => block_at b s).
  Proof.
    intros t2 b Wt Hn He Hs Hz. pose proof (reshaped t2 b Wt Hs) as Wp. rewrite Hn, He in Wp. constructor; auto.
    - intro s. rewrite (ms_e1 _ _ _ _ _ _ M), live_neg. unfold TwoFactor.dr. now rewrite sneg_invol.
    - intro s. cbn [emap]. rewrite F2. unfold TwoFactor.live. now rewrite andb_comm.
    - intros s P1 P2. apply (shape_sized t g1 g2 _ b _ Hs Hz). unfold TwoFactor.live. now rewrite P1, P2.
    - intros F n Hn' V. apply (ms_a1 _ _ _ _ _ _ M F n Hn' V).
  Qed.
End Side.
