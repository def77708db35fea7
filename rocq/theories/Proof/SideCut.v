(** One factor of svd, whole and with its common edge cut. *)
From Coq Require Import String Ascii List Bool Arith Lia Sorted Permutation.
From Verif Require Import Base.Outcome Base.SMap Model.Symmetry Model.Edge Model.Core Model.Transpose Model.EdgeOperator Model.Contract Model.Qr Model.SvdCut Model.Svd
  Spec.Blocks Spec.Fuse Spec.Sign Spec.Relabel Spec.Contract Spec.FermiContract Spec.Matrix Spec.Lapack Spec.Factor Spec.Truncate Spec.Svd Proof.SymmetryFacts Proof.LoopFacts Proof.CoreFacts Proof.ConstructFacts Proof.ElemFacts Proof.OffsetFacts
  Proof.CopyLoopFacts Proof.GroupFacts Proof.MergeFacts Proof.TableFacts Proof.SumFacts Proof.MatrixFacts Proof.SignFacts Proof.ExchangeFacts Proof.TransposeFacts Proof.TransposeTensor Proof.TransposeNames Proof.EdgeOperatorFacts Proof.NamedOperator Proof.LegFacts Proof.MergeSplit
  Proof.SplitMerged Proof.SplitAll Proof.SplitSome Proof.SplitLeg Proof.RegroupFacts Proof.TwoLegs Proof.ContractPlain Proof.ContractNames Proof.ContractSym Proof.FactorFacts Proof.FactorSides Proof.TwoFactor Proof.QrKernel Proof.QrTensor Proof.SvdKernel Proof.SvdTensor.
Import ListNotations.
Local Open Scope list_scope.
Local Notation tlegs t := (combine (t_names t) (t_edges t)).

Section Prune.
  Context {S R : Type} {SS : Sym S} {SL : SymLaws S}.
  Lemma prune_nth : forall (b : list (list S * list R)) es i k, nth_error (prune_from b i es) k =
    option_map (fun e => mkEdge (earrow e) (filter (fun sd => used_in b (i + k) (fst sd)) (emap e))) (nth_error es k).
  Proof.
    intros b es. induction es as [|e es IH]; intros i k; [now destruct k|]. destruct k as [|k]; cbn [prune_from nth_error option_map].
    - now rewrite Nat.add_0_r.
    - rewrite IH. f_equal. now replace (1 + i + k) with (i + Datatypes.S k) by lia.
  Qed.
  Lemma dims_of_map_some : forall {A} (f f' : A -> list (S * nat)) l k ds', (forall x s, In x l -> mfind s (f' x) <> None -> mfind s (f x) <> None) ->
    dims_of (map f' l) k = Some ds' -> exists ds, dims_of (map f l) k = Some ds.
  Proof.
    intros A f f' l. induction l as [|x l IH]; intros [|s k] ds' H E; cbn [map dims_of] in *; try discriminate; [eauto|].
    destruct (mfind s (f' x)) as [d'|] eqn:Q; [|discriminate]. destruct (dims_of (map f' l) k) as [r'|] eqn:Q'; [|discriminate].
    destruct (IH k r') as [r Hr]; [intros y s' Hy; apply H; now right|exact Q'|]. rewrite Hr.
    destruct (mfind s (f x)) as [d|] eqn:Q2; [eauto|]. exfalso. apply (H x s); [now left|congruence|exact Q2].
  Qed.
  Lemma prune_arrows : forall (b : list (list S * list R)) es i, map earrow (prune_from b i es) = map earrow es.
  Proof. intros b es. induction es as [|e es IH]; intro i; [reflexivity|]. cbn [prune_from map earrow]. now rewrite IH. Qed.
End Prune.

Section SideCut.
  Context {S R : Type} {SS : Sym S} {SL : SymLaws S} {RR : Scalar R}.
  Notation entry := (S * nat)%type.
  Variables (E : @env R) (t : tensor S R) (g h : list nat) (A c : nat) (right : bool) (K : S -> nat) (eA ec : edge S) (b : list (list S * list R)) (D : S -> list R) (right' : bool) (a a' : @eo_args S) (cm : list entry) (rr : S -> nat).
  Hypothesis W : wf_tensor t.
  Hypothesis HP : Permutation (t_names t) (g ++ h).
  Hypothesis SI : side_spec t g h A c right K eA ec b D.
  Hypothesis HAc : A <> c.
  Hypothesis Hc : ~ In c g.
  Hypothesis SP : splitting t A c g right' a.
  Hypothesis SP' : splitting t A c g right' a'.
  Hypothesis Hcut : a_cut a = [(c, [])].
  Hypothesis Hcut' : a_cut a' = [(c, cm)].
  Hypothesis Hrev : a_reversed a' = a_reversed a.
  Hypothesis Hex : a_ex_rev a' = a_ex_rev a.
  Hypothesis Hcm : forall s d, mfind s (emap ec) = Some d -> mfind s cm = Some (rr s) /\ rr s <= d.
  Let p := side_tensor A c right eA ec b.
  Let sg := xorb (xorb right right') (mem_name c (a_reversed a) && mem_name c (a_ex_rev a)).
  Let m := fun s i j => nth (if right then i * K s + j else j * merged_dim (mp t g) (sneg s) + i) (D s) rzero.

  Lemma sc_arr : forall a0, splitting t A c g right' a0 -> is_fermi = true -> forall n, In n g -> arrow_valid (edge_named (tlegs t) n) = true -> xorb (mem_name n (a_reversed a0)) (earrow eA) = earrow (edge_named (tlegs t) n).
  Proof. intros a0 SP0 F n Hn V. rewrite (sp_rev _ _ _ _ _ _ SP0 F n Hn), (si_arr _ _ _ _ _ _ _ _ _ _ _ SI F n Hn V). apply xorb_false_r. Qed.
  Lemma whole : exists X, edge_operator E p a = Ok X /\ factor t X g h c right' (mem_name c (a_reversed a)) sg K m.
  Proof.
    destruct (side_factor E t g h A c eA ec b right a right' K D W HP (si_wf _ _ _ _ _ _ _ _ _ _ _ SI) HAc Hc) as [X [X1 X2]]; try apply SI; try apply SP; eauto.
    - now apply sc_arr.
    - exists X. split; [exact X1|]. eapply factor_ext; [exact X2|..]; try reflexivity. intros _. rewrite (si_dir _ _ _ _ _ _ _ _ _ _ _ SI), xorb_false_r. auto.
  Qed.
  Lemma sc_sorted : msorted (emap ec).
  Proof.
    pose proof (wf_maps _ (wf_tcore _ (si_wf _ _ _ _ _ _ _ _ _ _ _ SI))) as X. unfold side_tensor in X. cbn [t_core c_edges] in X. unfold sorted_maps, maps_of in X. destruct right; inversion X as [|? ? X1 X2]; [inversion X2; assumption|assumption].
  Qed.
  Lemma sc_cut : ec1 c ec a' = mkEdge (earrow ec) (cut_map cm (emap ec)).
  Proof. unfold ec1, cut_edge. rewrite Hcut'. cbn [mfind]. now rewrite eqb_refl. Qed.
  Lemma sc_find : forall s, mfind s (cut_map cm (emap ec)) = match mfind s (emap ec) with Some d => if Nat.eqb (rr s) 0 then None else Some (rr s) | None => None end.
  Proof.
    intro s. rewrite cut_map_find. destruct (mfind s (emap ec)) as [d|] eqn:Q; [|reflexivity]. destruct (Hcm s d Q) as [-> Hle]. destruct (Nat.eqb (rr s) 0); [reflexivity|].
    f_equal. destruct (Nat.ltb_spec (rr s) d); lia.
  Qed.
  Lemma sc_cut_sorted : msorted (cut_map cm (emap ec)).
  Proof. apply cut_map_sorted, sc_sorted. Qed.
  Lemma sc_range : forall s j, in_range [cut_map cm (emap ec)] [(s, j)] <-> in_range [emap ec] [(s, j)] /\ j < rr s.
  Proof.
    intros s j. split.
    - intro H. apply one_point in H as [s' [j' [d [Q [Hd Hj]]]]]. injection Q as <- <-. apply In_mfind in Hd; [|exact sc_cut_sorted]. rewrite sc_find in Hd.
      destruct (mfind s (emap ec)) as [d0|] eqn:Q; [|discriminate]. destruct (Nat.eqb (rr s) 0); [discriminate|]. injection Hd as <-. split; [|exact Hj].
      destruct (Hcm s d0 Q) as [_ Hle]. apply mfind_In in Q. econstructor; [exact Q|lia|constructor].
    - intros [H Hj]. apply one_point in H as [s' [j' [d [Q [Hd _]]]]]. injection Q as <- <-. apply In_mfind in Hd; [|exact sc_sorted]. pose proof (sc_find s) as F. rewrite Hd in F.
      destruct (Nat.eqb_spec (rr s) 0) as [Z|Z]; [lia|]. apply mfind_In in F. econstructor; [exact F|exact Hj|constructor].
  Qed.

  Lemma cut_side : exists X X', edge_operator E p a = Ok X /\ factor t X g h c right' (mem_name c (a_reversed a)) sg K m /\ edge_operator E p a' = Ok X' /\ shortened X X' c rr.
  Proof.
    destruct whole as [X [X1 FX]].
    destruct (sd_split E t g h A c eA ec b right a right' K D W HP (si_wf _ _ _ _ _ _ _ _ _ _ _ SI) HAc Hc) as [r [H1 [H2 [H3 [H4 [H5 [H6 H7]]]]]]]; try apply SI; try apply SP; eauto.
    destruct (sd_split E t g h A c eA ec b right a' right' K D W HP (si_wf _ _ _ _ _ _ _ _ _ _ _ SI) HAc Hc) as [r' [H1' [H2' [H3' [H4' [H5' [H6' H7']]]]]]]; try apply SI; try apply SP'; eauto.
    assert (QX : r = X) by (unfold p, side_tensor in X1; rewrite X1 in H1; congruence). subst r. exists X, r'. split; [exact X1|]. split; [exact FX|]. split; [exact H1'|].
    assert (NN : a_new_names a' = a_new_names a) by (now rewrite (sp_new _ _ _ _ _ _ SP), (sp_new _ _ _ _ _ _ SP')).
    assert (E1 : ec1 c ec a = ec) by (eapply (sd_ec1 t g h A c eA ec b right a K (si_wf _ _ _ _ _ _ _ _ _ _ _ SI) (si_ec _ _ _ _ _ _ _ _ _ _ _ SI)); now right).
    assert (LG : forall n, n <> c -> leg_r c eA ec (parts t g) a' n = leg_r c eA ec (parts t g) a n) by (intros n Hn; unfold leg_r; destruct (Nat.eqb_spec n c); [contradiction|now rewrite Hrev]).
    assert (LC : leg_r c eA ec (parts t g) a c = mkEdge (xorb (is_fermi && mem_name c (a_reversed a)) (earrow ec)) (emap ec)) by (unfold leg_r; now rewrite Nat.eqb_refl, E1).
    assert (LC' : leg_r c eA ec (parts t g) a' c = mkEdge (xorb (is_fermi && mem_name c (a_reversed a)) (earrow ec)) (cut_map cm (emap ec))) by (unfold leg_r; now rewrite Nat.eqb_refl, sc_cut, Hrev).
    assert (Ic : In c (a_new_names a)) by (rewrite (sp_new _ _ _ _ _ _ SP); destruct right'; [apply in_or_app; right; now left|now left]).
    assert (HN : forall n, In n (a_new_names a) <-> In n g \/ n = c) by (intro n; rewrite (sp_new _ _ _ _ _ _ SP); destruct right'; [rewrite in_app_iff|]; cbn [In]; intuition).
    assert (ND : NoDup (a_new_names a)) by (rewrite <- H3; apply H2).
    assert (PTS : forall pos pt, assigns pos (t_names X) pt -> (valid_pt (t_core r') pt <-> valid_pt (t_core X) pt /\ snd (coord pos c) < rr (fst (coord pos c)))).
    { intros pos pt Ha. rewrite H6', H6, NN. rewrite H3 in Ha. rewrite (assigns_coord pos _ pt Ha). rewrite !in_range_named.
      assert (Q : (forall n, In n (a_new_names a) -> exists d, In (fst (coord pos n), d) (emap (leg_r c eA ec (parts t g) a' n)) /\ snd (coord pos n) < d) <->
        (forall n, In n (a_new_names a) -> exists d, In (fst (coord pos n), d) (emap (leg_r c eA ec (parts t g) a n)) /\ snd (coord pos n) < d) /\ snd (coord pos c) < rr (fst (coord pos c))).
      { pose proof (sc_range (fst (coord pos c)) (snd (coord pos c))) as SR. split.
        - intro H. assert (Z : in_range [cut_map cm (emap ec)] [(fst (coord pos c), snd (coord pos c))]).
          { destruct (H c Ic) as [d [D1 D2]]. rewrite LC' in D1. cbn [emap] in D1. econstructor; [exact D1|exact D2|constructor]. }
          apply SR in Z as [Z1 Z2]. split; [|exact Z2]. intros n Hn. destruct (Nat.eq_dec n c) as [->|N]; [|rewrite <- LG by exact N; now apply H].
          apply one_point in Z1 as [s' [j' [d [Q [Hd Hj]]]]]. injection Q as Qa Qb. rewrite LC. cbn [emap]. exists d. rewrite Qa, Qb. auto.
        - intros [H Hlt] n Hn. destruct (Nat.eq_dec n c) as [->|N]; [|rewrite LG by exact N; now apply H].
          assert (Z : in_range [cut_map cm (emap ec)] [(fst (coord pos c), snd (coord pos c))]).
          { apply SR. split; [|exact Hlt]. destruct (H c Ic) as [d [D1 D2]]. rewrite LC in D1. cbn [emap] in D1. econstructor; [exact D1|exact D2|constructor]. }
          apply one_point in Z as [s' [j' [d [Q [Hd Hj]]]]]. injection Q as Qa Qb. rewrite LC'. cbn [emap]. exists d. rewrite Qa, Qb. auto. }
      rewrite Q. tauto. }
    constructor.
    - exact H2'.
    - now rewrite H3, H3', NN.
    - rewrite H4, H4', !prune_arrows, NN, !map_map. apply map_ext_in. intros n Hn. destruct (Nat.eq_dec n c) as [->|N]; [now rewrite LC, LC'|now rewrite LG].
    - assert (HE : exists i, nth_error (a_new_names a) i = Some c) by (now apply In_nth_error). destruct HE as [i Hi].
      assert (EN' : edge_named (legs_of r') c = mkEdge (xorb (is_fermi && mem_name c (a_reversed a)) (earrow ec)) (cut_map cm (emap ec))).
      { assert (Hne : nth_error (t_edges r') i = Some (mkEdge (xorb (is_fermi && mem_name c (a_reversed a)) (earrow ec)) (filter (fun sd => used_in (t_blocks r') i (fst sd)) (cut_map cm (emap ec))))).
        { rewrite H4', prune_nth, NN, nth_error_map, Hi. cbn [option_map Nat.add]. now rewrite LC'. }
        assert (Hnn : nth_error (t_names r') i = Some c) by (rewrite H3', NN; exact Hi).
        unfold legs_of. rewrite (leg_named r' c _ H2' (nth_error_In _ i (combine_nth_some _ _ _ _ _ _ _ Hnn Hne))). f_equal.
        apply SplitMerged.filter_all. intros [s d] Hin. cbn [fst]. apply used_in_true. rewrite H5', NN.
        assert (MQ : map (fun n => emap (leg_r c eA ec (parts t g) a' n)) (a_new_names a) = if right' then mp t g ++ [emap (ec1 c ec a')] else emap (ec1 c ec a') :: mp t g).
        { assert (QG : map (fun n => emap (leg_r c eA ec (parts t g) a' n)) g = mp t g) by (apply map_ext_in; intros n Hn; now rewrite (sd_leg_g t g h c eA ec a' W HP Hc n Hn)).
          rewrite (sp_new _ _ _ _ _ _ SP). destruct right'; [rewrite map_app|]; cbn [map]; rewrite QG, LC', sc_cut; reflexivity. }
        assert (Hf : mfind s (cut_map cm (emap ec)) = Some d) by (apply In_mfind; [exact sc_cut_sorted|exact Hin]).
        assert (P1 : present (mp t g) (sneg s) = true).
        { rewrite sc_find, (si_ec _ _ _ _ _ _ _ _ _ _ _ SI) in Hf. destruct (present (mp t g) (sneg s)); [reflexivity|discriminate]. }
        destruct (sd_incl t g h HP) as [Ig _].
        apply (present_iff _ _ (mp_sorted t W g Ig)) in P1 as [kg [dg [D1 D2]]].
        pose proof (dims_of_length _ _ _ D1) as [L1 L2]. unfold mp in L1, L2. rewrite map_length in L1, L2.
        exists (if right' then kg ++ [s] else s :: kg). split.
        - apply (side_key t g h c (ec1 c ec a') a right' W HP (sp_new _ _ _ _ _ _ SP) _ kg s dg MQ D1 D2); rewrite sc_cut; cbn [emap]; [unfold mmem; now rewrite Hf|exact sc_cut_sorted].
        - rewrite (sp_new _ _ _ _ _ _ SP) in Hi. destruct right'.
          + destruct (Nat.lt_ge_cases i (length g)) as [Hl|Hl]; [rewrite nth_error_app1 in Hi by exact Hl; apply nth_error_In in Hi; contradiction|].
            rewrite nth_error_app2 in Hi |- * by lia. rewrite L2. destruct (i - length g) as [|[|?]]; [reflexivity|discriminate|discriminate].
          + destruct i as [|i]; [reflexivity|]. cbn [nth_error] in Hi. apply nth_error_In in Hi. contradiction. }
      assert (EX : forall s, mfind s (emap (edge_named (legs_of X) c)) = mfind s (emap ec)).
      { intro s. unfold legs_of. now rewrite (fc_common _ _ _ _ _ _ _ _ _ _ FX s), (si_ec _ _ _ _ _ _ _ _ _ _ _ SI). }
      assert (SX : msorted (emap (edge_named (legs_of X) c))).
      { unfold legs_of. apply named_sorted; [exact H2|]. now rewrite H3. }
      intros s d. rewrite EN'. cbn [emap]. split.
      + intro Hin. apply In_mfind in Hin; [|exact sc_cut_sorted]. rewrite sc_find in Hin. destruct (mfind s (emap ec)) as [d0|] eqn:Q; [|discriminate].
        destruct (Nat.eqb_spec (rr s) 0); [discriminate|]. injection Hin as <-. split; [lia|]. split; [reflexivity|]. exists d0. apply mfind_In. now rewrite EX.
      + intros [Hp [-> [d0 Hd]]]. apply In_mfind in Hd; [|exact SX]. rewrite EX in Hd. apply mfind_In. rewrite sc_find, Hd. destruct (Nat.eqb_spec (rr s) 0); [lia|reflexivity].
    - intros n s d Hn N Hin. rewrite H3 in Hn. destruct (In_nth_error _ _ Hn) as [i Hi].
      assert (Hx : nth_error (t_edges X) i = Some (mkEdge (earrow (leg_r c eA ec (parts t g) a n)) (filter (fun sd => used_in (t_blocks X) i (fst sd)) (emap (leg_r c eA ec (parts t g) a n))))) by (rewrite H4, prune_nth, nth_error_map, Hi; reflexivity).
      assert (Hr : nth_error (t_edges r') i = Some (mkEdge (earrow (leg_r c eA ec (parts t g) a n)) (filter (fun sd => used_in (t_blocks r') i (fst sd)) (emap (leg_r c eA ec (parts t g) a n))))) by (rewrite H4', prune_nth, NN, nth_error_map, Hi; cbn [option_map Nat.add]; now rewrite LG).
      assert (Nx : nth_error (t_names X) i = Some n) by (now rewrite H3). assert (Nr : nth_error (t_names r') i = Some n) by (now rewrite H3', NN).
      unfold legs_of in Hin |- *. rewrite (leg_named r' n _ H2' (nth_error_In _ i (combine_nth_some _ _ _ _ _ _ _ Nr Hr))) in Hin.
      rewrite (leg_named X n _ H2 (nth_error_In _ i (combine_nth_some _ _ _ _ _ _ _ Nx Hx))). cbn [emap] in Hin |- *.
      apply filter_In in Hin as [I1 I2]. apply filter_In. split; [exact I1|]. cbn [fst] in I2 |- *. apply used_in_true in I2 as [k [K1 K2]]. apply used_in_true. exists k. split; [|exact K2].
      assert (SA : forall n0, In n0 (a_new_names a) -> msorted (emap (leg_r c eA ec (parts t g) a n0))).
      { intros n0 Hn0. destruct (Nat.eq_dec n0 c) as [->|N0]; [rewrite LC; cbn [emap]; exact sc_sorted|]. apply HN in Hn0 as [Hg|]; [|contradiction].
        rewrite (sd_leg_g t g h c eA ec a W HP Hc n0 Hg). cbn [emap]. apply named_sorted; [exact W|]. now apply (proj1 (sd_incl t g h HP)). }
      assert (SA' : forall n0, In n0 (a_new_names a) -> msorted (emap (leg_r c eA ec (parts t g) a' n0))).
      { intros n0 Hn0. destruct (Nat.eq_dec n0 c) as [->|N0]; [rewrite LC'; cbn [emap]; exact sc_cut_sorted|]. rewrite LG by exact N0. now apply SA. }
      rewrite H5', NN in K1. rewrite H5. apply in_map_iff in K1 as [[k0 n0] [Q K1]]. cbn [fst] in Q. subst k0. apply in_block_list in K1 as [K1 K3].
      apply dims_of_choice in K1 as [ds' [K1 _]]; [|apply Forall_forall; intros m0 Hm0; apply in_map_iff in Hm0 as [y [<- Hy]]; now apply SA'].
      destruct (dims_of_map_some (fun n1 => emap (leg_r c eA ec (parts t g) a n1)) (fun n1 => emap (leg_r c eA ec (parts t g) a' n1)) (a_new_names a) k ds') as [ds Hds]; [|exact K1|].
      { intros y s' Hy Hs'. destruct (Nat.eq_dec y c) as [->|N0]; [|now rewrite LG in Hs']. rewrite LC' in Hs'. rewrite LC. cbn [emap] in Hs' |- *. rewrite sc_find in Hs'. now destruct (mfind s' (emap ec)). }
      apply in_map_iff. exists (k, prod ds). split; [reflexivity|]. apply in_block_list. split; [|exact K3].
      apply dims_of_choice; [apply Forall_forall; intros m0 Hm0; apply in_map_iff in Hm0 as [y [<- Hy]]; now apply SA|]. eauto.
    - exact PTS.
    - intros pos pt Ha Hv. pose proof (proj1 (PTS pos pt Ha) Hv) as [Hx Hlt]. rewrite H3 in Ha.
      assert (Hpos : forall n, In n (a_new_names a) -> mfind n pos <> None) by (intros n Hn C; unfold assigns in Ha; apply (in_map (fun n => mfind n pos)) in Hn; rewrite Ha, C in Hn; apply in_map_iff in Hn as [? [? _]]; discriminate).
      apply H6 in Hx as [Hr Hs]. rewrite (assigns_coord pos _ pt Ha) in Hr, Hs. rewrite in_range_named in Hr.
      destruct (coord pos c) as [s j] eqn:Cc. cbn [fst snd] in Hlt.
      assert (Rg : in_range (mp t g) (map (coord pos) g)).
      { unfold mp. apply in_range_named. intros n Hn. destruct (Hr n) as [d Hd]; [apply HN; now left|]. rewrite (sd_leg_g t g h c eA ec a W HP Hc n Hn) in Hd. eauto. }
      assert (Rc : in_range [emap ec] [(s, j)]).
      { destruct (Hr c Ic) as [d [D1 D2]]. rewrite LC, Cc in D1. rewrite Cc in D2. econstructor; [exact D1|exact D2|constructor]. }
      assert (Rc' : in_range [emap (ec1 c ec a')] [(s, j)]) by (rewrite sc_cut; cbn [emap]; apply sc_range; auto).
      assert (Ht : total (map (coord pos) g) = sneg s).
      { unfold total. rewrite (sp_new _ _ _ _ _ _ SP) in Hs. destruct right'.
        - rewrite !map_app, ssum_app in Hs. cbn [map] in Hs. rewrite ssum_one, Cc in Hs. cbn [fst] in Hs. now apply sl_opp.
        - cbn [map] in Hs. rewrite ssum_cons, Cc in Hs. cbn [fst] in Hs. rewrite sadd_comm in Hs. now apply sl_opp. }
      rewrite (H7 pos s j Hpos Cc Rg ltac:(rewrite E1; exact Rc) Ht). rewrite (H7' pos s j ltac:(rewrite NN; exact Hpos) Cc Rg Rc' Ht). now rewrite Hrev, Hex.
  Qed.
End SideCut.
