(** The steps qr and svd share: the legs in two groups, the common edges, the two tensors that receive the factors. *)
From Coq Require Import String List Bool Arith Lia Sorted Permutation.
From Verif Require Import Base.Outcome Base.SMap Model.Symmetry Model.Edge Model.Core Model.Transpose Model.EdgeOperator Model.Contract Model.Qr
  Spec.Blocks Spec.Fuse Spec.Sign Spec.Relabel Spec.Contract Spec.FermiContract Proof.SymmetryFacts Proof.LoopFacts Proof.CoreFacts Proof.ConstructFacts Proof.ElemFacts Proof.OffsetFacts
  Proof.CopyLoopFacts Proof.GroupFacts Proof.MergeFacts Proof.TableFacts Proof.SumFacts Proof.MatrixFacts Proof.SignFacts Proof.ExchangeFacts Proof.TransposeFacts Proof.TransposeTensor Proof.TransposeNames Proof.EdgeOperatorFacts Proof.NamedOperator Proof.LegFacts Proof.MergeSplit
  Proof.SplitMerged Proof.SplitAll Proof.SplitSome Proof.SplitLeg Proof.RegroupFacts Proof.TwoLegs Proof.ContractPlain Proof.ContractNames Proof.ContractSym Proof.FactorFacts Proof.FactorSides.
Import ListNotations.
Local Notation tlegs t := (combine (t_names t) (t_edges t)).

Section TwoFactor.
  Context {S R : Type} {SS : Sym S} {SL : SymLaws S} {RR : Scalar R}.
  Notation entry := (S * nat)%type.
  Variables (E : @env R) (t : tensor S R) (g1 g2 : list nat) (Q1 Q2 : nat) (rev : list nat).
  Hypothesis W : wf_tensor t.
  Hypothesis HP : Permutation (t_names t) (g1 ++ g2).
  Hypothesis HQ : Q1 <> Q2.
  Hypothesis HG : is_fermi = true -> group_arrow_known (env_arrow E) t g1 /\ group_arrow_known (env_arrow E) t g2.
  Hypothesis Hrev : is_fermi = true -> forall n, In n (t_names t) -> mem_name n rev = earrow (edge_named (tlegs t) n).

  Definition merge_args : @eo_args S := mkArgs [] [] rev (of_list [(Q1, g1); (Q2, g2)]) [Q1; Q2] false [] [] [] [] [].
  (** a charge of the first group that the second one can balance; sizes of the block; size of the common edge *)
  Definition live (s : S) : bool := present (mp t g1) s && present (mp t g2) (sneg s).
  Definition dl (s : S) : nat := merged_dim (mp t g1) s.
  Definition dr (s : S) : nat := merged_dim (mp t g2) (sneg s).
  Definition km (s : S) : nat := if Nat.ltb (dr s) (dl s) then dr s else dl s.

  Record merged_spec (p : tensor S R) (e0 e1 : edge S) : Prop := {
    ms_wf : wf_tensor p;
    ms_edges : t_edges p = [e0; e1];
    ms_e0 : forall s, mfind s (emap e0) = if live s then Some (dl s) else None;
    ms_e1 : forall s, mfind s (emap e1) = if live (sneg s) then Some (dr (sneg s)) else None;
    ms_block : forall s, live s = true -> exists data, mfind [s; sneg s] (t_blocks p) = Some data /\ length data = dl s * dr s /\
      forall pos pt, assigns pos (t_names t) pt -> valid_pt (t_core t) pt -> total (map (coord pos) g1) = s ->
        nth (snd (joined (tlegs t) g1 pos) * dr s + snd (joined (tlegs t) g2 pos)) data rzero = signed ropp (exchanged_odd (leg_odd pos) (t_names t) (g1 ++ g2)) (element t pos);
    ms_keys : forall key, In key (map fst (t_blocks p)) -> exists s, key = [s; sneg s] /\ live s = true;
    ms_a0 : is_fermi = true -> forall n, In n g1 -> arrow_valid (edge_named (tlegs t) n) = true -> earrow e0 = false;
    ms_a1 : is_fermi = true -> forall n, In n g2 -> arrow_valid (edge_named (tlegs t) n) = true -> earrow e1 = false }.

  Lemma tf_incl : incl g1 (t_names t) /\ incl g2 (t_names t).
  Proof. split; intros n Hn; (eapply Permutation_in; [apply Permutation_sym; exact HP|apply in_or_app; auto]). Qed.
  Lemma live_neg : forall s, live (sneg s) = present (mp t g2) s && present (mp t g1) (sneg s).
  Proof. intro s. unfold live. rewrite sneg_invol. apply andb_comm. Qed.
  Lemma neg_inj : forall a b : S, sneg a = sneg b -> a = b.
  Proof. intros a b H. rewrite <- (sneg_invol a), <- (sneg_invol b). now f_equal. Qed.
  Lemma pair_key : forall a b : S, [a; sneg a] = [b; sneg b] -> a = b.
  Proof. intros a b H. now injection H. Qed.

  Lemma merged_ok : exists p e0 e1, edge_operator E t merge_args = Ok p /\ merged_spec p e0 e1.
  Proof.
    destruct tf_incl as [I1 I2].
    assert (Hfind : mfind Q1 (a_merge merge_args) = Some g1 /\ mfind Q2 (a_merge merge_args) = Some g2).
    { assert (F : forall n x, In (n, x) [(Q1, g1); (Q2, g2)] -> mfind n (a_merge merge_args) = Some x); [|split; apply F; simpl; auto].
      intros n x H. unfold merge_args. cbn [a_merge]. apply (of_list_find nat (list nat) _ _); [|exact H]. cbn [map fst]. repeat constructor; simpl; intuition. }
    destruct Hfind as [F1 F2].
    assert (G : groups merge_args = [g1; g2]).
    { unfold groups, merge_groups. change (a_new_names merge_args) with [Q1; Q2]. cbn [map]. now rewrite F1, F2. }
    assert (Harrow : is_fermi = true -> env_arrow E <> None \/ forall l, In l [g1; g2] -> length l = 1 \/ exists n e, In n l /\ In (n, e) (tlegs t) /\ arrow_valid e = true).
    { intro F. destruct (HG F) as [K1 K2]. assert (X : forall l, incl l (t_names t) -> group_arrow_known (env_arrow E) t l -> env_arrow E <> None \/ length l = 1 \/ exists n e, In n l /\ In (n, e) (tlegs t) /\ arrow_valid e = true).
      { intros l Il [K|[K|[n [K3 K4]]]]; auto. right. right. destruct (leg_of_name t n W (Il n K3)) as [e He]. exists n, e. split; [exact K3|]. split; [exact He|].
        unfold legs_of in K4. now rewrite (leg_named t n e W He) in K4. }
      destruct (X g1 I1 K1) as [Y1|Y1]; [now left|]. destruct (X g2 I2 K2) as [Y2|Y2]; [now left|]. right. intros l [<-|[<-|[]]]; assumption. }
    destruct (regroup2_signed E t W true merge_args Q1 Q2 g1 g2 HQ eq_refl eq_refl eq_refl eq_refl eq_refl HP Harrow) as [p [e0 [e1 [H1 [H2 [H3 [H4 [H5 [H6 [H7 [H8 H9]]]]]]]]]]].
    exists p, e0, e1. split; [exact H1|]. destruct H7 as [x0 [X0 A0]]. destruct H8 as [x1 [X1 A1]].
    assert (Hed : t_edges p = [e0; e1]).
    { destruct (regroup E t merge_args W eq_refl eq_refl eq_refl) as [r [re [R1 [R2 [R3 _]]]]].
      - intro C. rewrite C in F1. discriminate.
      - cbn. repeat constructor; simpl; intuition.
      - rewrite G. cbn [concat]. now rewrite app_nil_r.
      - intro F. rewrite G. now apply Harrow.
      - assert (r = p) by congruence. subst r. pose proof (wf_rank _ R2) as L. rewrite R3 in L. cbn in L.
        destruct (t_edges p) as [|a [|b [|? ?]]]; try discriminate. cbn in H3, H4. congruence. }
    assert (E0 : forall s, mfind s (emap e0) = if live s then Some (dl s) else None).
    { intro s. rewrite H5. unfold live, dl. destruct (present (mp t g1) s), (present (mp t g2) (sneg s)); reflexivity. }
    assert (E1 : forall s, mfind s (emap e1) = if live (sneg s) then Some (dr (sneg s)) else None).
    { intro s. rewrite H6, live_neg. unfold dr. rewrite sneg_invol. destruct (present (mp t g1) (sneg s)), (present (mp t g2) s); reflexivity. }
    constructor; auto.
    - intros s Hl. unfold live in Hl. apply andb_true_iff in Hl as [L1 L2]. destruct (H9 s L1 L2) as [data [D1 [D2 D3]]]. exists data. split; [exact D1|]. split; [exact D2|].
      intros pos pt Ha [Hv1 Hv2] Ht.
      assert (T2 : total (map (coord pos) g2) = sneg s).
      { assert (Z : sadd (total (map (coord pos) g1)) (total (map (coord pos) g2)) = szero).
        { rewrite <- Hv2, (assigns_coord pos _ pt Ha). unfold total. rewrite <- ssum_app, <- !map_app. apply ssum_perm. do 2 apply Permutation_map. now apply Permutation_sym. }
        rewrite Ht in Z. now apply sadd_eq_0 in Z. }
      specialize (D3 pos pt Ha Hv1 Ht T2). unfold at1 in D3.
      transitivity (signed ropp (sign_number t merge_args pos) (element t pos)).
      { rewrite <- D3. f_equal. unfold dr. lia. }
      apply signed_parity. rewrite sign_plain by reflexivity. rewrite G. cbn [concat]. rewrite app_nil_r. rewrite (plain_names2 t merge_args) by (try reflexivity; assumption).
      rewrite (par_false _ _ (t_names t)) by (intros n _; cbn; now rewrite andb_false_r). rewrite (par_false _ _ (combine _ _)) by (intros n _; reflexivity). now rewrite !xorb_false_r.
    - intros key Hk. pose proof (wf_tcore _ H2) as Wc. change (t_blocks p) with (c_blocks (t_core p)) in Hk. rewrite <- shape_keys, (wf_shape _ Wc) in Hk.
      change (c_edges (t_core p)) with (t_edges p) in Hk. rewrite Hed in Hk. pose proof (wf_maps _ Wc) as M. change (c_edges (t_core p)) with (t_edges p) in M. rewrite Hed in M. inversion M as [|? ? M1 M2]; subst. inversion M2; subst.
      apply two_block_keys in Hk as [s [-> [K1 _]]]; [|assumption|assumption]. exists s. split; [reflexivity|]. unfold mmem in K1. rewrite E0 in K1. now destruct (live s).
    - intros F n Hn V. rewrite A0. apply (group_arrow E t merge_args W eq_refl eq_refl eq_refl g1 x0 false n F X0 I1); auto. intros m Hm. change (a_reversed merge_args) with rev. rewrite (Hrev F m (I1 m Hm)). apply xorb_nilpotent.
    - intros F n Hn V. rewrite A1. apply (group_arrow E t merge_args W eq_refl eq_refl eq_refl g2 x1 false n F X1 I2); auto. intros m Hm. change (a_reversed merge_args) with rev. rewrite (Hrev F m (I2 m Hm)). apply xorb_nilpotent.
  Qed.

  (** the common edges *)
  Lemma common_ok : forall p e0 e1, merged_spec p e0 e1 -> exists c1 c2, common_edges p = Ok (mkEdge false c1, mkEdge false c2) /\ msorted c1 /\ msorted c2 /\
    (forall s, mfind s c1 = if live (sneg s) then Some (km (sneg s)) else None) /\ (forall s, mfind s c2 = if live s then Some (km s) else None).
  Proof.
    intros p e0 e1 M. unfold common_edges. rewrite (ms_edges _ _ _ M). cbn [nth_error get_or_ub bind].
    match goal with |- context [foldM ?f _ _] => set (F := f) end.
    assert (G : forall bl c1 c2, (forall kb, In kb bl -> exists s, fst kb = [s; sneg s] /\ live s = true) -> msorted c1 -> msorted c2 -> exists c1' c2', foldM F bl (c1, c2) = Ok (c1', c2') /\ msorted c1' /\ msorted c2' /\
      (forall s, mfind s c1' = if mmem [sneg s; s] bl then Some (km (sneg s)) else mfind s c1) /\ (forall s, mfind s c2' = if mmem [s; sneg s] bl then Some (km s) else mfind s c2)).
    { induction bl as [|[k d] bl IH]; intros c1 c2 Hb S1 S2; [exists c1, c2; repeat (split; [auto|]); auto|].
      destruct (Hb (k, d) (or_introl eq_refl)) as [s [Ks Hs]]. cbn [fst] in Ks. subst k. cbn [foldM]. unfold F at 1. cbn [fst nth_error get_or_ub bind].
      rewrite (ms_e0 _ _ _ M), Hs. cbn [at_or_throw bind]. rewrite (ms_e1 _ _ _ M), sneg_invol, Hs. cbn [at_or_throw bind]. fold (km s).
      destruct (IH (mset (sneg s) (km s) c1) (mset s (km s) c2)) as [c1' [c2' [G1 [G2 [G3 [G4 G5]]]]]]; [intros kb H; apply Hb; now right|now apply mset_sorted|now apply mset_sorted|].
      exists c1', c2'. split; [exact G1|]. split; [exact G2|]. split; [exact G3|]. split; intro x.
      - rewrite G4. unfold mmem. cbn [mfind]. destruct (eqb [sneg x; x] [s; sneg s]) eqn:Q.
        + apply eqb_eq in Q. injection Q as Q1' Q2'. destruct (mfind [sneg x; x] bl); [reflexivity|]. rewrite Q1', Q2'. now rewrite mfind_mset_same.
        + destruct (mfind [sneg x; x] bl); [reflexivity|]. apply mfind_mset_other. intro C. rewrite C, sneg_invol, eqb_refl in Q. discriminate.
      - rewrite G5. unfold mmem. cbn [mfind]. destruct (eqb [x; sneg x] [s; sneg s]) eqn:Q.
        + apply eqb_eq in Q. injection Q as Q1' Q2'. subst x. destruct (mfind [s; sneg s] bl); [reflexivity|]. now rewrite mfind_mset_same.
        + destruct (mfind [x; sneg x] bl); [reflexivity|]. apply mfind_mset_other. intro C. rewrite C, eqb_refl in Q. discriminate. }
    destruct (G (t_blocks p) [] []) as [c1 [c2 [G1 [G2 [G3 [G4 G5]]]]]].
    { intros kb H. apply (ms_keys _ _ _ M). now apply in_map. } { constructor. } { constructor. }
    assert (Lm : forall s, mmem [s; sneg s] (t_blocks p) = live s).
    { intro s. unfold mmem. destruct (mfind [s; sneg s] (t_blocks p)) eqn:Q.
      - apply mfind_In_key in Q. destruct (ms_keys _ _ _ M _ Q) as [x [X1 X2]]. apply pair_key in X1. now subst x.
      - destruct (live s) eqn:X; [|reflexivity]. destruct (ms_block _ _ _ M s X) as [data [D _]]. congruence. }
    exists c1, c2. rewrite G1. cbn [bind fst snd]. split; [reflexivity|]. split; [exact G2|]. split; [exact G3|]. split; intro s.
    - rewrite G4. replace [sneg s; s] with [sneg s; sneg (sneg s)] by (now rewrite sneg_invol). now rewrite Lm.
    - now rewrite G5, Lm.
  Qed.
End TwoFactor.

Section Make.
  Context {S R : Type} {SS : Sym S} {SL : SymLaws S} {RR : Scalar R}.
  (** a tensor with two legs whose charges match: nothing is pruned *)
  Lemma make_two : forall (junk : R) n0 n1 (e0 e1 : edge S), n0 <> n1 -> msorted (emap e0) -> msorted (emap e1) -> (forall s, mmem s (emap e0) = mmem (sneg s) (emap e1)) ->
    exists p, make_tensor junk [n0; n1] [e0; e1] false = Ok p /\ wf_tensor p /\ t_names p = [n0; n1] /\ t_edges p = [e0; e1] /\
      (forall s d0 d1, mfind s (emap e0) = Some d0 -> mfind (sneg s) (emap e1) = Some d1 -> exists data, mfind [s; sneg s] (t_blocks p) = Some data /\ length data = d0 * d1).
  Proof.
    intros junk n0 n1 e0 e1 Hn S0 S1 Hm. destruct (make_tensor_ok junk [n0; n1] [e0; e1] false) as [p [M1 [M2 [M3 [M4 M5]]]]].
    { repeat constructor; auto. } { repeat constructor; simpl; intuition. } { reflexivity. }
    rewrite andb_false_r in M5. rewrite <- M4 in M5. unfold maps_of in M4. cbn [map] in M4.
    assert (Hk : map fst (t_blocks p) = map fst (block_list [emap e0; emap e1])) by (rewrite M4; apply junk_keys).
    assert (He : t_edges p = [e0; e1]).
    { rewrite M5. apply prune_id. intros j e s Hj Hs. rewrite Nat.add_0_l. apply used_in_true. rewrite Hk.
      assert (Q : mmem s (emap e) = true) by (unfold mmem; apply mfind_Some_In in Hs as [d ->]; reflexivity).
      destruct j as [|[|j]]; cbn in Hj; try (injection Hj as <-); [| |destruct j; discriminate].
      - exists [s; sneg s]. split; [|reflexivity]. apply two_block_keys; auto. exists s. split; [reflexivity|]. split; [exact Q|]. now rewrite <- Hm.
      - exists [sneg s; s]. split; [|reflexivity]. apply two_block_keys; auto. exists (sneg s). rewrite sneg_invol. split; [reflexivity|]. split; [|exact Q]. now rewrite Hm, sneg_invol. }
    exists p. split; [exact M1|]. split; [exact M2|]. split; [exact M3|]. split; [exact He|].
    destruct (two_legs p e0 e1 M2 S0 S1 M5 Hk) as [p0 [p1 [_ [_ [_ T4]]]]]. intros s d0 d1 X Y. destruct (T4 s d0 d1 X Y) as [data [D1 [D2 _]]]. eauto.
  Qed.
End Make.
