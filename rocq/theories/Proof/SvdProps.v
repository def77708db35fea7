(** What svd returns: product, sizes, orthonormality, truncation. *)
From Coq Require Import String Ascii List Bool Arith Lia Sorted Permutation.
From Verif Require Import Base.Outcome Base.SMap Model.Symmetry Model.Edge Model.Core Model.Transpose Model.EdgeOperator Model.Contract Model.Qr Model.SvdCut Model.Svd Model.Misc
  Spec.Blocks Spec.Fuse Spec.Sign Spec.Relabel Spec.Contract Spec.FermiContract Spec.Matrix Spec.Lapack Spec.Factor Spec.Truncate Spec.Spectrum Spec.Svd Proof.SymmetryFacts Proof.LoopFacts Proof.CoreFacts Proof.ConstructFacts Proof.ElemFacts Proof.OffsetFacts
  Proof.CopyLoopFacts Proof.GroupFacts Proof.MergeFacts Proof.TableFacts Proof.SumFacts Proof.MatrixFacts Proof.SignFacts Proof.ExchangeFacts Proof.TransposeFacts Proof.TransposeTensor Proof.TransposeNames Proof.EdgeOperatorFacts Proof.NamedOperator Proof.LegFacts Proof.MergeSplit
  Proof.SplitMerged Proof.SplitAll Proof.SplitSome Proof.SplitLeg Proof.RegroupFacts Proof.TwoLegs Proof.ContractPlain Proof.ContractNames Proof.ContractSym Proof.MultipleFacts Proof.FactorFacts Proof.FactorSides Proof.TwoFactor Proof.QrKernel Proof.QrTensor Proof.QrProps
  Proof.SvdCutFacts Proof.SvdKernel Proof.SvdTensor Proof.SvdMid Proof.SideCut.
Import ListNotations.
Local Open Scope list_scope.
Local Notation tlegs t := (combine (t_names t) (t_edges t)).

(** ** a factor whose common edge is multiplied by a spectrum *)
Section Scaled.
  Context {S R : Type} {SS : Sym S} {SL : SymLaws S} {RR : Scalar R}.
  Hypothesis EN : @is_fermi S SS = true -> exact_negation R.
  Definition entry_of (spectrum : list (S * list R)) (s : S) (j : nat) : R := match mfind s spectrum with Some l => nth j l rzero | None => rzero end.
  Lemma scaled_factor : forall (E : @env R) (t X : tensor S R) g h c lc ar sg K m spectrum ch dd,
    wf_tensor t -> Permutation (t_names t) (g ++ h) -> factor t X g h c lc ar sg K m -> dir_of ch = Some dd ->
    (forall s, present (mp t g) (sneg s) = true -> present (mp t h) s = true -> exists l, mfind (turn dd s) spectrum = Some l /\ length l = K s) ->
    exists X', multiple E X spectrum c ch false = Ok X' /\ factor t X' g h c lc ar sg K (fun s i j => rmul (m s i j) (entry_of spectrum (turn dd s) j)).
  Proof.
    intros E t X g h c lc ar sg K m spectrum ch dd W HP FX Hd Hl.
    pose proof (fc_wf _ _ _ _ _ _ _ _ _ _ FX) as WX. destruct (factor_names _ _ _ _ _ _ _ _ _ _ FX) as [ND [Hn _]].
    assert (Ig : incl g (t_names t)) by (intros n H; eapply Permutation_in; [apply Permutation_sym; exact HP|apply in_or_app; auto]).
    destruct (multiple_at E X spectrum c ch dd false WX) as [r [M1 [M2 [M3 [M4 M5]]]]].
    - apply Hn. now right.
    - exact Hd.
    - intros e s d He Hin. rewrite <- (leg_named X c e WX He) in Hin. apply (fx_common _ _ _ _ _ _ _ _ _ _ FX) in Hin as [P1 [P2 ->]]. now apply Hl.
    - exists r. split; [exact M1|]. constructor.
      + exact M2.
      + rewrite M3. apply FX.
      + intros n H. rewrite M3, M4. now apply FX.
      + intros F n H V. rewrite M3, M4. now apply FX.
      + intro s. rewrite M3, M4. apply FX.
      + intro F. rewrite M3, M4. now apply FX.
      + intros pos s j Hpos Hc Hr Ht P2 Hj. rewrite M3 in Hpos.
        assert (P1 : present (mp t g) (sneg s) = true) by (rewrite <- Ht; apply (present_point _ _ (mp_sorted t W g Ig) Hr)).
        destruct (M5 pos (map (coord pos) (t_names X))) as [x [vec [v [V1 [V2 [V3 V4]]]]]].
        * now apply assigns_all.
        * split.
          -- apply range_maps; [exact WX|]. intros n Hin. apply Hn in Hin as [Hin| ->].
             ++ rewrite (fc_free _ _ _ _ _ _ _ _ _ _ FX n Hin). unfold mp in Hr. rewrite in_range_named in Hr. now apply Hr.
             ++ rewrite Hc. exists (K s). split; [|exact Hj]. apply (fx_common _ _ _ _ _ _ _ _ _ _ FX). auto.
          -- rewrite (fc_names _ _ _ _ _ _ _ _ _ _ FX). unfold total in Ht. destruct lc.
             ++ rewrite !map_app, ssum_app, Ht. cbn [map]. rewrite ssum_one, Hc. apply sadd_neg_l.
             ++ cbn [map]. rewrite ssum_cons, Ht, Hc. apply sadd_neg_r.
        * rewrite V4. unfold weight. rewrite (fc_elem _ _ _ _ _ _ _ _ _ _ FX pos s j Hpos Hc Hr Ht P2 Hj) in V1. injection V1 as <-. rewrite Hc in V2, V3. cbn [fst snd] in V2, V3.
          assert (Q : entry_of spectrum (turn dd s) j = v) by (unfold entry_of; rewrite V2; now apply nth_error_nth). rewrite Q. f_equal.
          destruct (sg && sodd s) eqn:So; [|reflexivity].
          destruct (bool_dec (@is_fermi S SS) true) as [F|F]; [|apply not_true_is_false in F; rewrite (bose_odd F), andb_false_r in So; discriminate].
          apply (en_mul _ (EN F)).
  Qed.
End Scaled.

Section Main.
  Context {S R V : Type} {SS : Sym S} {SL : SymLaws S} {RR : Scalar R}.
  Notation entry := (S * nat)%type.
  Hypothesis EA : exact_arithmetic R.
  Hypothesis MA : associative_product R.
  Variables (of_real : V -> R) (vzero : V) (greater : V -> V -> bool).
  Variable gesvd : nat -> nat -> list R -> bool * (list V * list R * list R).
  Hypothesis HS : svd_sound of_real vzero greater gesvd.
  Variables (E : @env R) (vjunk : V) (I : svd_names) (t : tensor S R) (free : list nat) (cu cv : nat).
  Let fu := u_legs free t.
  Let fv := v_legs free t.
  Hypothesis W : wf_tensor t.
  Hypothesis HQ : i_svd_u I <> i_svd_v I.
  Hypothesis Hu : cu <> i_svd_u I.
  Hypothesis Hv : cv <> i_svd_v I.
  Hypothesis Nu : ~ In cu fu.
  Hypothesis Nv : ~ In cv fv.
  Hypothesis HG : @is_fermi S SS = true -> group_arrow_known (env_arrow E) t fu /\ group_arrow_known (env_arrow E) t fv.
  Notation put := (put_right t free).
  Let run := svd gesvd vzero greater E vjunk I t free cu cv.

  Lemma split_u : forall ru, splitting t (i_svd_u I) cu fu true (args_u I t free cu ru).
  Proof.
    intro ru. constructor; try reflexivity.
    - intros n H. unfold args_u in H. cbn [a_ex_rev] in H. destruct put; [destruct H|destruct H as [<-|[]]; reflexivity].
    - intros F n Hn. unfold args_u, rev_side. cbn [a_reversed]. rewrite F. rewrite <- (legs_rev t W (fun n => mem_name n free) n Hn). unfold mem_name at 1. cbn [existsb].
      destruct (Nat.eqb_spec n cu) as [->|_]; [contradiction|reflexivity].
  Qed.
  Lemma split_v : forall rv, splitting t (i_svd_v I) cv fv false (args_v I t free cv rv).
  Proof.
    intro rv. constructor; try reflexivity.
    - intros n []. 
    - intros F n Hn. unfold args_v, rev_side. cbn [a_reversed]. rewrite F. apply (legs_rev t W (fun n => negb (mem_name n free)) n Hn).
  Qed.
  Lemma vu_perm : Permutation (t_names t) (fv ++ fu).
  Proof. etransitivity; [apply (uv_perm t free)|apply Permutation_app_comm]. Qed.

  Record svd_out (u v : tensor S R) (sing : list (S * list V)) (w : bool) (Du Dv : S -> list R) : Prop := {
    so_u : factor t u fu fv cu true true false (ku t free) (mu t free Du);
    so_v : factor t v fv fu cv false false (negb put) (kv t free) (mv t free Dv);
    so_sorted : msorted sing;
    so_sing : forall s, mfind s sing = if both t free s then Some (vec sing s) else None;
    so_len : forall s, both t free s = true -> length (vec sing s) = ku t free s;
    so_warn : w = true -> ~ svd_never_fails gesvd;
    so_good : w = false -> svd_good of_real vzero greater t free sing Du Dv }.

  Lemma kv_neg : forall s, kv t free (sneg s) = ku t free s.
  Proof. intro s. unfold kv, ku. rewrite sneg_invol. apply Nat.min_comm. Qed.

  Theorem svd_outcomes : exists u v sing w Du Dv, run None = Ok (u, sing, v, w) /\ svd_out u v sing w Du Dv /\
    (forall n, total_dimension sing <= n -> run (Some n) = Ok (u, sing, v, w)) /\
    (forall n r, svd_cut vzero greater sing (Some n) = Ok (map (fun sv => (fst sv, r (fst sv))) sing, of_list (map (fun sv => (sneg (fst sv), r (fst sv))) sing), prefixes r sing) ->
       (forall s l, In (s, l) sing -> r s <= length l) ->
       exists u' v', run (Some n) = Ok (u', prefixes r sing, v', w) /\ shortened u u' cu r /\ shortened v v' cv (fun s => r (sneg s))).
  Proof.
    destruct (svd_middle EA MA of_real vzero greater gesvd HS E vjunk I t free cu cv W HQ Hu Hv HG) as [eU [ecu [eV [ecv [bu [bv [Du [Dv [sing [w [MD RUN]]]]]]]]]]].
    assert (HP : Permutation (t_names t) (fu ++ fv)) by apply (uv_perm t free).
    assert (CU : forall ru (rr : S -> nat), (forall s d, mfind s (emap ecu) = Some d -> mfind s ru = Some (rr s) /\ rr s <= d) ->
      exists X X', edge_operator E (side_tensor (i_svd_u I) cu put eU ecu bu) (args_u I t free cu []) = Ok X /\ factor t X fu fv cu true true false (ku t free) (mu t free Du) /\
        edge_operator E (side_tensor (i_svd_u I) cu put eU ecu bu) (args_u I t free cu ru) = Ok X' /\ shortened X X' cu rr).
    { intros ru rr H. destruct (cut_side E t fu fv (i_svd_u I) cu put (ku t free) eU ecu bu Du true (args_u I t free cu []) (args_u I t free cu ru) ru rr W HP (md_u _ _ _ _ _ _ _ _ _ _ _ _ _ _ _ _ _ _ _ MD)
        (not_eq_sym Hu) Nu (split_u []) (split_u ru) eq_refl eq_refl eq_refl eq_refl H) as [X [X' [X1 [X2 [X3 X4]]]]].
      exists X, X'. split; [exact X1|]. split; [|auto]. eapply factor_ext; [exact X2| |reflexivity|reflexivity].
      intro F. unfold args_u. cbn [a_reversed a_ex_rev]. rewrite F. unfold mem_name. cbn [existsb]. rewrite Nat.eqb_refl. split; [reflexivity|]. destruct put; cbn [existsb]; rewrite ?Nat.eqb_refl; reflexivity. }
    assert (CV : forall rv (rr : S -> nat), (forall s d, mfind s (emap ecv) = Some d -> mfind s rv = Some (rr s) /\ rr s <= d) ->
      exists X X', edge_operator E (side_tensor (i_svd_v I) cv (negb put) eV ecv bv) (args_v I t free cv []) = Ok X /\ factor t X fv fu cv false false (negb put) (kv t free) (mv t free Dv) /\
        edge_operator E (side_tensor (i_svd_v I) cv (negb put) eV ecv bv) (args_v I t free cv rv) = Ok X' /\ shortened X X' cv rr).
    { intros rv rr H. destruct (cut_side E t fv fu (i_svd_v I) cv (negb put) (kv t free) eV ecv bv Dv false (args_v I t free cv []) (args_v I t free cv rv) rv rr W vu_perm (md_v _ _ _ _ _ _ _ _ _ _ _ _ _ _ _ _ _ _ _ MD)
        (not_eq_sym Hv) Nv (split_v []) (split_v rv) eq_refl eq_refl eq_refl eq_refl H) as [X [X' [X1 [X2 [X3 X4]]]]].
      exists X, X'. split; [exact X1|]. split; [|auto]. eapply factor_ext; [exact X2| |reflexivity|reflexivity].
      intro F. unfold args_v. cbn [a_reversed a_ex_rev]. rewrite andb_false_r. split; [|now destruct put].
      unfold rev_side. rewrite F. apply (legs_rev_not t W (fun n => negb (mem_name n free)) cv Nv). }
    destruct (CU (emap ecu) (fun s => match mfind s (emap ecu) with Some d => d | None => 0 end)) as [u [_ [U1 [U2 _]]]]; [intros s d ->; auto|].
    destruct (CV (emap ecv) (fun s => match mfind s (emap ecv) with Some d => d | None => 0 end)) as [v [_ [V1 [V2 _]]]]; [intros s d ->; auto|].
    exists u, v, sing, w, Du, Dv.
    assert (RN : forall cut, svd_cut vzero greater sing cut = Ok ([], [], sing) -> run cut = Ok (u, sing, v, w)).
    { intros cut Q. unfold run. rewrite RUN, Q. cbn [bind]. rewrite U1. cbn [bind]. rewrite V1. reflexivity. }
    split; [now apply RN|]. split; [constructor; auto; try apply MD|]. split.
    - intros n Hn. apply RN. now apply svd_no_cut.
    - intros n r C1 C2. pose proof (md_sorted _ _ _ _ _ _ _ _ _ _ _ _ _ _ _ _ _ _ _ MD) as SS1.
      set (ru := map (fun sv : S * list V => (fst sv, r (fst sv))) sing) in *. set (rv := of_list (map (fun sv : S * list V => (sneg (fst sv), r (fst sv))) sing)) in *.
      assert (C3 : ru = map (fun sv => (fst sv, r (fst sv))) sing) by reflexivity. assert (C4 : rv = of_list (map (fun sv => (sneg (fst sv), r (fst sv))) sing)) by reflexivity. clearbody ru rv.
      assert (IS : forall s, both t free s = true -> In (s, vec sing s) sing).
      { intros s Hb. apply mfind_In. now rewrite (md_sing _ _ _ _ _ _ _ _ _ _ _ _ _ _ _ _ _ _ _ MD), Hb. }
      assert (RL : forall s, both t free s = true -> r s <= ku t free s).
      { intros s Hb. rewrite <- (md_len _ _ _ _ _ _ _ _ _ _ _ _ _ _ _ _ _ _ _ MD s Hb). apply (C2 s). now apply IS. }
      destruct (CU ru r) as [u0 [u' [A1 [_ [A3 A4]]]]].
      { intros s d Hd. rewrite (si_ec _ _ _ _ _ _ _ _ _ _ _ (md_u _ _ _ _ _ _ _ _ _ _ _ _ _ _ _ _ _ _ _ MD)) in Hd. fold (both t free s) in Hd. destruct (both t free s) eqn:Hb; [|discriminate]. injection Hd as <-.
        split; [|now apply RL]. rewrite C3. apply In_mfind_nodup; [|apply in_map_iff; exists (s, vec sing s); auto]. rewrite map_map. cbn [fst]. now apply msorted_nodup. }
      destruct (CV rv (fun s => r (sneg s))) as [v0 [v' [B1 [_ [B3 B4]]]]].
      { intros s d Hd. rewrite (si_ec _ _ _ _ _ _ _ _ _ _ _ (md_v _ _ _ _ _ _ _ _ _ _ _ _ _ _ _ _ _ _ _ MD)) in Hd.
        assert (Hb : both t free (sneg s) = true) by (unfold both; rewrite sneg_invol, andb_comm; now destruct (_ && _)).
        assert (Qd : d = kv t free s) by (destruct (_ && _); congruence). subst d. split.
        - rewrite C4. apply of_list_find; [exact _| |].
          + rewrite map_map. cbn [fst]. assert (ND : NoDup (map fst sing)) by (now apply msorted_nodup). rewrite <- (map_map fst sneg). apply FinFun.Injective_map_NoDup; [|exact ND]. intros x y. apply neg_inj.
          + apply in_map_iff. exists (sneg s, vec sing (sneg s)). cbn [fst]. rewrite sneg_invol. auto.
        - specialize (RL (sneg s) Hb). rewrite <- kv_neg, sneg_invol in RL. exact RL. }
      rewrite U1 in A1. injection A1 as <-. rewrite V1 in B1. injection B1 as <-.
      exists u', v'. split; [|auto]. unfold run. rewrite RUN, C1. cbn [bind]. rewrite A3. cbn [bind]. rewrite B3. reflexivity.
  Qed.
  Theorem svd_outcome : exists u v sing w Du Dv, run None = Ok (u, sing, v, w) /\ svd_out u v sing w Du Dv /\
    (forall n, total_dimension sing <= n -> run (Some n) = Ok (u, sing, v, w)) /\
    (w = false -> strict_order greater -> forall n, n < total_dimension sing -> n <= sum_nat (map (fun sv => positives vzero greater (snd sv)) sing) ->
       exists r u' v', run (Some n) = Ok (u', prefixes r sing, v', w) /\ best_selection greater sing n r /\ shortened u u' cu r /\ shortened v v' cv (fun s => r (sneg s))).
  Proof.
    destruct svd_outcomes as [u [v [sing [w [Du [Dv [H1 [H2 [H3 H4]]]]]]]]]. exists u, v, sing, w, Du, Dv. split; [exact H1|]. split; [exact H2|]. split; [exact H3|].
    intros Hw SO n Hn Hp. destruct (svd_cut_general vzero greater SO sing n (so_sorted _ _ _ _ _ _ H2)) as [ru [rv [r [C1 [C2 [C3 C4]]]]]]; auto.
    { intros s l Hin. apply In_mfind in Hin; [|exact (so_sorted _ _ _ _ _ _ H2)]. now apply (sg_desc _ _ _ _ _ _ _ _ (so_good _ _ _ _ _ _ H2 Hw)) in Hin. }
    destruct (H4 n r) as [u' [v' [K1 [K2 K3]]]]; [now rewrite C1, C3, C4|exact (proj1 (proj2 C2))|]. exists r, u', v'. auto.
  Qed.

  Hypothesis EN : @is_fermi S SS = true -> exact_negation R.
  Lemma scalars_find : forall (sing : list (S * list V)) (s : S), mfind s (as_scalars of_real sing) = option_map (map of_real) (mfind s sing).
  Proof. intros sing s. unfold as_scalars. induction sing as [|[k l] m IH]; [reflexivity|]. cbn [map fst snd mfind]. destruct (eqb s k); auto. Qed.
  Lemma scalars_at : forall (sing : list (S * list V)) s j, j < length (vec sing s) -> entry_of (as_scalars of_real sing) s j = of_real (nth j (vec sing s) vzero).
  Proof.
    intros sing s j. unfold entry_of, vec. rewrite scalars_find. destruct (mfind s sing) as [l|]; cbn [option_map length]; [|lia]. intro H.
    rewrite (nth_indep _ rzero (of_real vzero)) by (now rewrite map_length). apply map_nth.
  Qed.
  Definition same_tensor (t' : tensor S R) : Prop :=
    wf_tensor t' /\ t_names t' = t_names t /\ map emap (t_edges t') = map emap (t_edges t) /\ t_blocks t' = t_blocks t /\
    (@is_fermi S SS = true -> forall n, In n (t_names t) -> arrow_valid (edge_named (legs_of t) n) = true -> earrow (edge_named (legs_of t') n) = earrow (edge_named (legs_of t) n)).
  Lemma both_total : forall pos pt, assigns pos (t_names t) pt -> valid_pt (t_core t) pt -> both t free (total (map (coord pos) fv)) = true.
  Proof.
    intros pos pt Ha [Hr Hz]. fold (t_edges t) in Hr. unfold both.
    assert (Iu : incl fu (t_names t)) by (intros n Hn; eapply Permutation_in; [apply Permutation_sym, (uv_perm t free)|apply in_or_app; auto]).
    assert (Iv : incl fv (t_names t)) by (intros n Hn; eapply Permutation_in; [apply Permutation_sym, (uv_perm t free)|apply in_or_app; auto]).
    pose proof (mp_range t W pos pt fu Ha Hr Iu) as Ru. pose proof (mp_range t W pos pt fv Ha Hr Iv) as Rv.
    assert (Z : sadd (total (map (coord pos) fu)) (total (map (coord pos) fv)) = szero).
    { unfold total. rewrite <- ssum_app, <- map_app, <- map_app. rewrite <- Hz, (assigns_coord pos _ pt Ha). apply ssum_perm, Permutation_map, Permutation_map, Permutation_sym, (uv_perm t free). }
    apply sl_opp in Z. rewrite <- Z. fold fu fv. rewrite (present_point _ _ (mp_sorted t W fu Iu) Ru), (present_point _ _ (mp_sorted t W fv Iv) Rv). reflexivity.
  Qed.

  Theorem svd_reconstructs : t_blocks t <> [] -> forall (E1 E2 : @env R) (J : internal) (du dv : ascii), dir_of du = Some false -> dir_of dv = Some true -> NoDup [i_contract_0 J; i_contract_1 J; i_contract_2 J] ->
    (@is_fermi S SS = true -> group_arrow_known (env_arrow E2) t fu /\ group_arrow_known (env_arrow E2) t fv) ->
    exists u v sing w, run None = Ok (u, sing, v, w) /\ (w = true -> ~ svd_never_fails gesvd) /\
      (w = false -> (exists u' t', multiple E1 u (as_scalars of_real sing) cu du false = Ok u' /\ bind (contract E2 J u' v [(cu, cv)]) (fun p => transpose E2 p (t_names t)) = Ok t' /\ same_tensor t') /\
                    (exists v' t', multiple E1 v (as_scalars of_real sing) cv dv false = Ok v' /\ bind (contract E2 J u v' [(cu, cv)]) (fun p => transpose E2 p (t_names t)) = Ok t' /\ same_tensor t')).
  Proof.
    intros B E1 E2 J du dv Hdu Hdv HJ HG2. destruct svd_outcome as [u [v [sing [w [Du [Dv [R1 [O [_ _]]]]]]]]].
    exists u, v, sing, w. split; [exact R1|]. split; [apply O|]. intro Hw. pose proof (so_good _ _ _ _ _ _ O Hw) as GD.
    pose proof (so_u _ _ _ _ _ _ O) as FU. pose proof (so_v _ _ _ _ _ _ O) as FV.
    assert (HP : Permutation (t_names t) (fu ++ fv)) by apply (uv_perm t free). split.
    - destruct (scaled_factor EN E1 t u fu fv cu true true false (ku t free) (mu t free Du) (as_scalars of_real sing) du false W HP FU Hdu) as [u' [M1 M2]].
      { intros s P1 P2. assert (Hb : both t free s = true) by (unfold both; fold fu fv; now rewrite P1, P2). cbn [turn]. rewrite scalars_find, (so_sing _ _ _ _ _ _ O s), Hb. cbn [option_map].
        eexists. split; [reflexivity|]. rewrite map_length. now apply (so_len _ _ _ _ _ _ O). }
      exists u'. destruct (reconstruct t W B EA EN E2 J u' v fu fv cu cv true false false (negb put) (negb put) (ku t free) (kv t free) _ (mv t free Dv) HJ HP M2 FV kv_neg HG2) as [t' [T1 T2]].
      + now destruct put.
      + intros pos pt Ha Hvp. cbv zeta. etransitivity; [|exact (sg_mul _ _ _ _ _ _ _ _ GD pos pt Ha Hvp)]. cbv zeta. fold fu fv. apply sum_ext. intros j Hj. apply in_seq in Hj. cbn [turn]. fold fu fv.
        rewrite scalars_at; [reflexivity|]. rewrite (so_len _ _ _ _ _ _ O) by (now apply (both_total pos pt)). fold fv in Hj. lia.
      + exists t'. split; [exact M1|]. split; [exact T1|exact T2].
    - destruct (scaled_factor EN E1 t v fv fu cv false false (negb put) (kv t free) (mv t free Dv) (as_scalars of_real sing) dv true W vu_perm FV Hdv) as [v' [M1 M2]].
      { intros s P1 P2. assert (Hb : both t free (sneg s) = true) by (unfold both; fold fu fv; now rewrite sneg_invol, P1, P2). cbn [turn]. rewrite scalars_find, (so_sing _ _ _ _ _ _ O (sneg s)), Hb. cbn [option_map].
        eexists. split; [reflexivity|]. rewrite map_length, (so_len _ _ _ _ _ _ O) by exact Hb. rewrite <- kv_neg. now rewrite sneg_invol. }
      exists v'. destruct (reconstruct t W B EA EN E2 J u v' fu fv cu cv true false false (negb put) (negb put) (ku t free) (kv t free) (mu t free Du) _ HJ HP FU M2 kv_neg HG2) as [t' [T1 T2]].
      + now destruct put.
      + intros pos pt Ha Hvp. cbv zeta. etransitivity; [|exact (sg_mul _ _ _ _ _ _ _ _ GD pos pt Ha Hvp)]. cbv zeta. fold fu fv. apply sum_ext. intros j Hj. apply in_seq in Hj. cbn [turn]. rewrite sneg_invol. fold fu fv.
        rewrite scalars_at; [|rewrite (so_len _ _ _ _ _ _ O) by (now apply (both_total pos pt)); fold fv in Hj; lia]. rewrite MA. f_equal. apply (ea_mul_comm _ EA).
      + exists t'. split; [exact M1|]. split; [exact T1|exact T2].
  Qed.

  Lemma uv_incl : incl fu (t_names t) /\ incl fv (t_names t).
  Proof. split; intros n Hn; (eapply Permutation_in; [apply Permutation_sym, (uv_perm t free)|apply in_or_app; auto]). Qed.
End Main.

Section Shape.
  Context {S R V : Type} {SS : Sym S} {SL : SymLaws S} {RR : Scalar R}.
  Hypothesis EA : exact_arithmetic R.
  Hypothesis MA : associative_product R.
  Variables (of_real : V -> R) (vzero : V) (greater : V -> V -> bool).
  Variable gesvd : nat -> nat -> list R -> bool * (list V * list R * list R).
  Hypothesis HS : svd_sound of_real vzero greater gesvd.
  Variables (E : @env R) (vjunk : V) (I : svd_names) (t : tensor S R) (free : list nat) (cu cv : nat).
  Let fu := u_legs free t.
  Let fv := v_legs free t.
  Hypothesis W : wf_tensor t.
  Hypothesis HQ : i_svd_u I <> i_svd_v I.
  Hypothesis Hu : cu <> i_svd_u I.
  Hypothesis Hv : cv <> i_svd_v I.
  Hypothesis Nu : ~ In cu fu.
  Hypothesis Nv : ~ In cv fv.
  Hypothesis HG : @is_fermi S SS = true -> group_arrow_known (env_arrow E) t fu /\ group_arrow_known (env_arrow E) t fv.

  Lemma svd_shape : exists u v sing w, svd gesvd vzero greater E vjunk I t free cu cv None = Ok (u, sing, v, w) /\ (w = true -> ~ svd_never_fails gesvd) /\ wf_tensor u /\ wf_tensor v /\
      t_names u = fu ++ [cu] /\ t_names v = cv :: fv /\
      (forall n, In n fu -> emap (edge_named (legs_of u) n) = emap (edge_named (legs_of t) n)) /\ (forall n, In n fv -> emap (edge_named (legs_of v) n) = emap (edge_named (legs_of t) n)) /\
      (forall s d, In (s, d) (emap (edge_named (legs_of u) cu)) <-> has_charge t fu (sneg s) /\ has_charge t fv s /\ d = Nat.min (fused_dim t fu (sneg s)) (fused_dim t fv s)) /\
      (forall s d, In (s, d) (emap (edge_named (legs_of v) cv)) <-> In (sneg s, d) (emap (edge_named (legs_of u) cu))) /\
      (@is_fermi S SS = true -> earrow (edge_named (legs_of u) cu) = true /\ earrow (edge_named (legs_of v) cv) = false) /\
      map (fun sl => (fst sl, length (snd sl))) sing = emap (edge_named (legs_of u) cu) /\
      (w = false -> forall s l, In (s, l) sing -> descending greater l /\ forall x, In x l -> greater vzero x = false).
  Proof.
    destruct (svd_outcome EA MA of_real vzero greater gesvd HS E vjunk I t free cu cv W HQ Hu Hv Nu Nv HG) as [u [v [sing [w [Du [Dv [R1 [O [_ _]]]]]]]]].
    exists u, v, sing, w. pose proof (so_u _ _ _ _ _ _ _ _ _ _ _ _ _ _ O) as FU. pose proof (so_v _ _ _ _ _ _ _ _ _ _ _ _ _ _ O) as FV.
    destruct (uv_incl t free) as [Iu Iv]. fold fu fv in FU, FV, Iu, Iv.
    split; [exact R1|]. split; [apply O|]. split; [apply FU|]. split; [apply FV|]. split; [apply FU|]. split; [apply FV|]. split; [apply FU|]. split; [apply FV|].
    split; [|split; [|split; [|split]]].
    - intros s d. unfold legs_of. rewrite (fx_common _ _ _ _ _ _ _ _ _ _ FU). unfold has_charge, maps_in. rewrite <- !present_choice by assumption. unfold ku. tauto.
    - intros s d. unfold legs_of. rewrite (fx_common _ _ _ _ _ _ _ _ _ _ FU), (fx_common _ _ _ _ _ _ _ _ _ _ FV). rewrite sneg_invol. unfold ku, kv. fold fu fv. rewrite sneg_invol, (Nat.min_comm (merged_dim (mp t fv) (sneg s))). tauto.
    - intro F. split; [now apply FU|now apply FV].
    - apply msorted_ext.
      + assert (X := so_sorted _ _ _ _ _ _ _ _ _ _ _ _ _ _ O). clear - X. unfold msorted in *. rewrite map_map. cbn [fst]. exact X.
      + apply named_sorted; [apply FU|]. rewrite (fc_names _ _ _ _ _ _ _ _ _ _ FU). apply in_or_app. right. now left.
      + intro s. unfold legs_of. rewrite (fc_common _ _ _ _ _ _ _ _ _ _ FU s). change (present (mp t fu) (sneg s) && present (mp t fv) s) with (both t free s).
        assert (Q : mfind s (map (fun sl => (fst sl, length (snd sl))) sing) = option_map (@length V) (mfind s sing)) by (clear; induction sing as [|[k l] m IH]; [reflexivity|]; cbn [map fst snd mfind]; destruct (eqb s k); auto).
        rewrite Q, (so_sing _ _ _ _ _ _ _ _ _ _ _ _ _ _ O s). destruct (both t free s) eqn:Hb; [|reflexivity]. cbn [option_map]. f_equal. now apply (so_len _ _ _ _ _ _ _ _ _ _ _ _ _ _ O).
    - intros Hw s l Hin. apply (sg_desc _ _ _ _ _ _ _ _ (so_good _ _ _ _ _ _ _ _ _ _ _ _ _ _ O Hw) s). apply In_mfind; [apply O|exact Hin].
  Qed.

  Lemma svd_isometry : (@is_fermi S SS = true -> exact_negation R) -> exact_conjugation R ->
    exists u v sing w, svd gesvd vzero greater E vjunk I t free cu cv None = Ok (u, sing, v, w) /\ (w = true -> ~ svd_never_fails gesvd) /\ (w = false ->
      (forall s a s' b, in_range [emap (edge_named (legs_of u) cu)] [(s, a)] -> in_range [emap (edge_named (legs_of u) cu)] [(s', b)] ->
        rsum (map (fun pt => rmul (rconj (element u ((cu, (s, a)) :: combine fu pt))) (element u ((cu, (s', b)) :: combine fu pt)))
               (points (map (fun n => emap (edge_named (legs_of u) n)) fu))) = if eqb s s' then ident a b else rzero) /\
      (forall s a s' b, in_range [emap (edge_named (legs_of v) cv)] [(s, a)] -> in_range [emap (edge_named (legs_of v) cv)] [(s', b)] ->
        rsum (map (fun pt => rmul (rconj (element v ((cv, (s, a)) :: combine fv pt))) (element v ((cv, (s', b)) :: combine fv pt)))
               (points (map (fun n => emap (edge_named (legs_of v) n)) fv))) = if eqb s s' then ident a b else rzero)).
  Proof.
    intros EN EC. destruct (svd_outcome EA MA of_real vzero greater gesvd HS E vjunk I t free cu cv W HQ Hu Hv Nu Nv HG) as [u [v [sing [w [Du [Dv [R1 [O [_ _]]]]]]]]].
    exists u, v, sing, w. split; [exact R1|]. split; [apply O|]. intro Hw. pose proof (so_good _ _ _ _ _ _ _ _ _ _ _ _ _ _ O Hw) as GD. split.
    - apply (fx_isometry t u fu fv cu true true false (ku t free) (mu t free Du) W (uv_perm t free) (so_u _ _ _ _ _ _ _ _ _ _ _ _ _ _ O) EA EN EC).
      intros s P1 P2. apply (sg_u _ _ _ _ _ _ _ _ GD). unfold both. fold fu fv. now rewrite P1, P2.
    - apply (fx_isometry t v fv fu cv false false _ (kv t free) (mv t free Dv) W (vu_perm t free) (so_v _ _ _ _ _ _ _ _ _ _ _ _ _ _ O) EA EN EC).
      intros s P1 P2. apply (sg_v _ _ _ _ _ _ _ _ GD). unfold both. fold fu fv. now rewrite sneg_invol, P1, P2.
  Qed.

  Lemma svd_cuts : exists u v sing w, svd gesvd vzero greater E vjunk I t free cu cv None = Ok (u, sing, v, w) /\ 
      forall n r, svd_cut vzero greater sing (Some n) = Ok (map (fun sv => (fst sv, r (fst sv))) sing, of_list (map (fun sv => (sneg (fst sv), r (fst sv))) sing), prefixes r sing) ->
        (forall s l, In (s, l) sing -> r s <= length l) ->
        exists u' v', svd gesvd vzero greater E vjunk I t free cu cv (Some n) = Ok (u', prefixes r sing, v', w) /\ shortened u u' cu r /\ shortened v v' cv (fun s => r (sneg s)).
  Proof.
    destruct (svd_outcomes EA MA of_real vzero greater gesvd HS E vjunk I t free cu cv W HQ Hu Hv Nu Nv HG) as [u [v [sing [w [Du [Dv [H1 [_ [_ H4]]]]]]]]].
    exists u, v, sing, w. split; [exact H1|exact H4].
  Qed.
  Lemma svd_truncates : strict_order greater -> forall n,
    exists u v sing w, svd gesvd vzero greater E vjunk I t free cu cv None = Ok (u, sing, v, w) /\ (w = true -> ~ svd_never_fails gesvd) /\
      (sum_nat (map (fun sv => length (snd sv)) sing) <= n -> svd gesvd vzero greater E vjunk I t free cu cv (Some n) = Ok (u, sing, v, w)) /\
      (w = false -> n < sum_nat (map (fun sv => length (snd sv)) sing) -> n <= sum_nat (map (fun sv => positives vzero greater (snd sv)) sing) ->
        exists r u' v', svd gesvd vzero greater E vjunk I t free cu cv (Some n) = Ok (u', prefixes r sing, v', w) /\ best_selection greater sing n r /\ shortened u u' cu r /\ shortened v v' cv (fun s => r (sneg s))).
  Proof.
    intros SO n. destruct (svd_outcome EA MA of_real vzero greater gesvd HS E vjunk I t free cu cv W HQ Hu Hv Nu Nv HG) as [u [v [sing [w [Du [Dv [R1 [O [C1 C2]]]]]]]]].
    exists u, v, sing, w. split; [exact R1|]. split; [apply O|]. rewrite <- total_sum. split; [apply C1|]. intros Hw. now apply C2.
  Qed.
End Shape.
