(** svd: what it computes before and after the truncation. *)
From Coq Require Import String Ascii List Bool Arith Lia Sorted Permutation.
From Verif Require Import Base.Outcome Base.SMap Model.Symmetry Model.Edge Model.Core Model.Transpose Model.EdgeOperator Model.Contract Model.Qr Model.SvdCut Model.Svd
  Spec.Blocks Spec.Fuse Spec.Sign Spec.Relabel Spec.Contract Spec.FermiContract Spec.Matrix Spec.Lapack Spec.Factor Spec.Truncate Spec.Svd Proof.SymmetryFacts Proof.LoopFacts Proof.CoreFacts Proof.ConstructFacts Proof.ElemFacts Proof.OffsetFacts
  Proof.CopyLoopFacts Proof.GroupFacts Proof.MergeFacts Proof.TableFacts Proof.SumFacts Proof.MatrixFacts Proof.SignFacts Proof.ExchangeFacts Proof.TransposeFacts Proof.TransposeTensor Proof.TransposeNames Proof.EdgeOperatorFacts Proof.NamedOperator Proof.LegFacts Proof.MergeSplit
  Proof.SplitMerged Proof.SplitAll Proof.SplitSome Proof.SplitLeg Proof.RegroupFacts Proof.TwoLegs Proof.ContractPlain Proof.ContractNames Proof.ContractSym Proof.FactorFacts Proof.FactorSides Proof.TwoFactor Proof.QrKernel Proof.QrTensor Proof.SvdKernel Proof.SvdTensor.
Import ListNotations.
Local Open Scope list_scope.
Local Notation tlegs t := (combine (t_names t) (t_edges t)).

Section Main.
  Context {S R V : Type} {SS : Sym S} {SL : SymLaws S} {RR : Scalar R}.
  Notation entry := (S * nat)%type.
  Hypothesis EA : exact_arithmetic R.
  Hypothesis MA : associative_product R.
  Variables (of_real : V -> R) (vzero : V) (greater : V -> V -> bool).
  Variable gesvd : nat -> nat -> list R -> bool * (list V * list R * list R).
  Hypothesis HS : svd_sound of_real vzero greater gesvd.
  Variables (E : @env R) (vjunk : V) (I : svd_names) (t : tensor S R) (free : list nat) (cu cv : nat).
  Let fu := u_legs free t.
  Let fv := v_legs free t.
  Hypothesis W : wf_tensor t.
  Hypothesis HQ : i_svd_u I <> i_svd_v I.
  Hypothesis Hu : cu <> i_svd_u I.
  Hypothesis Hv : cv <> i_svd_v I.
  Hypothesis Nu : ~ In cu fu.
  Hypothesis Nv : ~ In cv fv.
  Hypothesis HG : is_fermi = true -> group_arrow_known (env_arrow E) t fu /\ group_arrow_known (env_arrow E) t fv.

  Definition put_right : bool := is_nil fv || Nat.eqb (last fv 0) (last (t_names t) 0).
  Definition ku (s : S) : nat := Nat.min (merged_dim (mp t fu) (sneg s)) (merged_dim (mp t fv) s).
  Definition kv (s : S) : nat := Nat.min (merged_dim (mp t fv) (sneg s)) (merged_dim (mp t fu) s).
  Definition both (s : S) : bool := present (mp t fu) (sneg s) && present (mp t fv) s.
  Definition rev_side (f : nat -> bool) : list nat := if is_fermi then map fst (filter (fun ne => earrow (snd ne)) (filter (fun ne => f (fst ne)) (tlegs t))) else [].
  Definition args_u (cut : list (S * nat)) : @eo_args S :=
    mkArgs [] [(i_svd_u I, parts t fu)] (if is_fermi then cu :: rev_side (fun n => mem_name n free) else rev_side (fun n => mem_name n free)) [] (fu ++ [cu]) false [] (if put_right then [] else [cu]) [] [] [(cu, cut)].
  Definition args_v (cut : list (S * nat)) : @eo_args S :=
    mkArgs [] [(i_svd_v I, parts t fv)] (rev_side (fun n => negb (mem_name n free))) [] (cv :: fv) false [] [] [] [] [(cv, cut)].
  Definition mu (Du : S -> list R) (s : S) (i j : nat) : R := nth (if put_right then i * ku s + j else j * merged_dim (mp t fu) (sneg s) + i) (Du s) rzero.
  Definition mv (Dv : S -> list R) (s : S) (i j : nat) : R := nth (if negb put_right then i * kv s + j else j * merged_dim (mp t fv) (sneg s) + i) (Dv s) rzero.
  Definition vec (sing : list (S * list V)) (s : S) : list V := match mfind s sing with Some l => l | None => [] end.

  Record svd_good (sing : list (S * list V)) (Du Dv : S -> list R) : Prop := {
    sg_mul : forall pos pt, assigns pos (t_names t) pt -> valid_pt (t_core t) pt -> let s := total (map (coord pos) fv) in
      rsum (map (fun j => rmul (rmul (mu Du s (snd (joined (tlegs t) fu pos)) j) (of_real (nth j (vec sing s) vzero))) (mv Dv (sneg s) (snd (joined (tlegs t) fv pos)) j)) (seq 0 (ku s))) =
      signed ropp (exchanged_odd (leg_odd pos) (t_names t) (fu ++ fv) + (if negb put_right && sodd s then 1 else 0)) (element t pos);
    sg_u : forall s, both s = true -> forall a b, a < ku s -> b < ku s ->
      rsum (map (fun i => rmul (rconj (mu Du s i a)) (mu Du s i b)) (seq 0 (merged_dim (mp t fu) (sneg s)))) = ident a b;
    sg_v : forall s, both (sneg s) = true -> forall a b, a < kv s -> b < kv s ->
      rsum (map (fun i => rmul (rconj (mv Dv s i a)) (mv Dv s i b)) (seq 0 (merged_dim (mp t fv) (sneg s)))) = ident a b;
    sg_desc : forall s l, mfind s sing = Some l -> descending greater l /\ forall x, In x l -> greater vzero x = false }.
  Record svd_mid (eU ecu eV ecv : edge S) (bu bv : list (list S * list R)) (Du Dv : S -> list R) (sing : list (S * list V)) (w : bool) : Prop := {
    md_u : side_spec t fu fv (i_svd_u I) cu put_right ku eU ecu bu Du;
    md_v : side_spec t fv fu (i_svd_v I) cv (negb put_right) kv eV ecv bv Dv;
    md_sorted : msorted sing;
    md_sing : forall s, mfind s sing = if both s then Some (vec sing s) else None;
    md_len : forall s, both s = true -> length (vec sing s) = ku s;
    md_warn : w = true -> ~ svd_never_fails gesvd;
    md_good : w = false -> svd_good sing Du Dv }.

  Lemma uv_perm : Permutation (t_names t) (fu ++ fv).
  Proof.
    pose proof (side_split t (fun n => negb (member n free))) as X. unfold fu, fv, u_legs, v_legs. erewrite (filter_ext _ (fun n => member n free)) in X; [exact X|]. intro n. apply negb_involutive.
  Qed.
  Lemma merge_swap : forall (A : Type) (a b : nat) (x y : A), a <> b -> of_list [(a, x); (b, y)] = of_list [(b, y); (a, x)].
  Proof.
    clear. intros A a b x y H. unfold of_list. cbn [fold_left fst snd].
    assert (N : msorted (@nil (nat * A))) by constructor.
    apply msorted_ext; try (do 2 apply mset_sorted; assumption).
    intro k. destruct (ord_dec k a) as [Ka|Ka]; destruct (ord_dec k b) as [Kb|Kb]; try subst k; rewrite ?mfind_mset_same; rewrite ?mfind_mset_other by congruence; rewrite ?mfind_mset_same; rewrite ?mfind_mset_other by congruence; congruence.
  Qed.

  Theorem svd_middle : exists eU ecu eV ecv bu bv Du Dv sing w,
    svd_mid eU ecu eV ecv bu bv Du Dv sing w /\
    forall cut, svd gesvd vzero greater E vjunk I t free cu cv cut =
      bind (svd_cut vzero greater sing cut) (fun remain => let '(ru, rv, sing') := remain in
      bind (edge_operator E (side_tensor (i_svd_u I) cu put_right eU ecu bu) (args_u ru)) (fun u =>
      bind (edge_operator E (side_tensor (i_svd_v I) cv (negb put_right) eV ecv bv) (args_v rv)) (fun v => Ok (u, sing', v, w)))).
  Proof.
    unfold svd. cbv zeta.
    rewrite (legs_fst t W (fun n => mem_name n free)), (legs_fst t W (fun n => negb (mem_name n free))).
    rewrite (legs_parts t W (fun n => mem_name n free)), (legs_parts t W (fun n => negb (mem_name n free))).
    change (filter (fun n => mem_name n free) (t_names t)) with fu. change (filter (fun n => negb (mem_name n free)) (t_names t)) with fv.
    fold put_right. fold (rev_side (fun n => mem_name n free)). fold (rev_side (fun n => negb (mem_name n free))).
    set (rev := if is_fermi then map fst (filter (fun ne => earrow (snd ne)) (tlegs t)) else []).
    set (g1 := if put_right then fu else fv). set (g2 := if put_right then fv else fu).
    set (Q1 := if put_right then i_svd_u I else i_svd_v I). set (Q2 := if put_right then i_svd_v I else i_svd_u I).
    set (com1 := if put_right then cu else cv). set (com2 := if put_right then cv else cu).
    assert (HP : Permutation (t_names t) (g1 ++ g2)).
    { unfold g1, g2. destruct put_right; [exact uv_perm|]. etransitivity; [exact uv_perm|apply Permutation_app_comm]. }
    assert (HG' : is_fermi = true -> group_arrow_known (env_arrow E) t g1 /\ group_arrow_known (env_arrow E) t g2) by (intro F; destruct (HG F); unfold g1, g2; destruct put_right; auto).
    assert (Hrev : is_fermi = true -> forall n, In n (t_names t) -> mem_name n rev = earrow (edge_named (tlegs t) n)) by (intros F n Hn; unfold rev; rewrite F; now apply legs_all).
    assert (HQ12 : Q1 <> Q2) by (unfold Q1, Q2; destruct put_right; congruence).
    destruct (merged_ok E t g1 g2 Q1 Q2 rev W HP HQ12 HG' Hrev) as [p [e0 [e1 [M1 M]]]].
    assert (MM : mkArgs [] [] rev (of_list [(i_svd_u I, fu); (i_svd_v I, fv)]) (if put_right then [i_svd_u I; i_svd_v I] else [i_svd_v I; i_svd_u I]) false [] [] [] [] [] = @merge_args S g1 g2 Q1 Q2 rev).
    { unfold merge_args, g1, g2, Q1, Q2. destruct put_right; [reflexivity|]. now rewrite (merge_swap _ (i_svd_u I) (i_svd_v I)) by exact HQ. }
    rewrite MM, M1. cbn [bind]. clear MM.
    destruct (common_ok t g1 g2 p e0 e1 M) as [c1 [c2 [C1 [C2 [C3 [C4 C5]]]]]]. rewrite C1. cbn [bind]. rewrite (ms_edges _ _ _ _ _ _ M). cbn [nth_error get_or_ub bind fst snd].
    assert (Hc1 : Q1 <> com1) by (unfold com1, Q1; destruct put_right; congruence).
    assert (Hc2 : Q2 <> com2) by (unfold com2, Q2; destruct put_right; congruence).
    destruct (make_left E t g1 g2 Q1 com1 p e0 e1 c1 M C2 C4 Hc1) as [t1 [A1 [A2 [A3 [A4 A5]]]]].
    destruct (make_right E t g1 g2 Q2 com2 p e0 e1 c2 M C3 C5 Hc2) as [t2 [B1 [B2 [B3 [B4 B5]]]]].
    replace (if put_right then [i_svd_u I; cu] else [i_svd_v I; cv]) with [Q1; com1] by (unfold Q1, com1; now destruct put_right).
    replace (if put_right then [cv; i_svd_v I] else [cu; i_svd_u I]) with [com2; Q2] by (unfold Q2, com2; now destruct put_right).
    rewrite A1. cbn [bind]. rewrite B1. cbn [bind]. rewrite A4, B4. cbn [nth_error get_or_ub bind].
    assert (Hbl : forall kb, In kb (t_blocks p) -> exists s, fst kb = [s; sneg s] /\ live t g1 g2 s = true /\ length (snd kb) = dl t g1 s * dr t g2 s).
    { intros [k d] Hkb. destruct (ms_keys _ _ _ _ _ _ M k) as [s [-> Hs]]; [apply in_map_iff; exists (k, d); auto|]. exists s. split; [reflexivity|]. split; [exact Hs|].
      destruct (ms_block _ _ _ _ _ _ M s Hs) as [d' [D1 [D2 _]]]. pose proof (ms_wf _ _ _ _ _ _ M) as Wp. apply In_mfind in Hkb; [|apply (wf_blocks_sorted _ (wf_tcore _ Wp))]. cbn [snd]. congruence. }
    destruct (svd_loop EA MA of_real vzero greater gesvd HS t g1 g2 e0 e1 (env_junk E) vjunk put_right (ms_e0 _ _ _ _ _ _ M) (ms_e1 _ _ _ _ _ _ M) (t_blocks p) (t_blocks t1) (t_blocks t2) [] false)
      as [b1 [b2 [sing [w [X1 [X2 [X3 [X4 [_ [X6 [_ [X8 X9]]]]]]]]]]]]; auto.
    { apply (wf_blocks_sorted _ (wf_tcore _ A2)). } { apply (wf_blocks_sorted _ (wf_tcore _ B2)). } { constructor. }
    { apply msorted_nodup, (wf_blocks_sorted _ (wf_tcore _ (ms_wf _ _ _ _ _ _ M))). }
    rewrite X1. cbn [bind]. rewrite A3, B3. clear X1 A1 B1 C1 M1.
    pose proof (left_side t g1 g2 Q1 com1 p e0 e1 c1 M C4 t1 b1 A2 A3 A4 X2 A5) as SL1.
    pose proof (right_side t g1 g2 Q2 com2 p e0 e1 c2 M C5 t2 b2 B2 B3 B4 X3 B5) as SR1.
    (* what the loop leaves, for every charge *)
    assert (HF : forall s data, live t g1 g2 s = true -> In ([s; sneg s], data) (t_blocks p) -> length (vec sing (at_key put_right s)) = km t g1 g2 s /\ mfind (at_key put_right s) sing = Some (vec sing (at_key put_right s)) /\
      (w = false -> svd_of of_real vzero greater (dl t g1 s) (dr t g2 s) (km t g1 g2 s) data (block_at b1 s) (vec sing (at_key put_right s)) (block_at b2 s))).
    { intros s data Hs Hin. destruct (X9 s data Hs Hin) as [d1 [sv [d2 [Y1 [Y2 [Y3 [[_ [Y4 _]] Y5]]]]]]]. unfold block_at, vec. rewrite Y1, Y2, Y3. auto. }
    assert (HF1 : forall s, live t g1 g2 s = true -> exists data, length (vec sing (at_key put_right s)) = km t g1 g2 s /\ mfind (at_key put_right s) sing = Some (vec sing (at_key put_right s)) /\
      (w = false -> svd_of of_real vzero greater (dl t g1 s) (dr t g2 s) (km t g1 g2 s) data (block_at b1 s) (vec sing (at_key put_right s)) (block_at b2 s))).
    { intros s Hs. destruct (ms_block _ _ _ _ _ _ M s Hs) as [d [D1 _]]. apply mfind_In in D1. exists d. now apply (HF s d). }
    assert (Hboth : forall s, live t g1 g2 (at_key put_right s) = both s).
    { intro s. unfold live, both, at_key, g1, g2. destruct put_right; [now rewrite sneg_invol|apply andb_comm]. }
    assert (HM1 : forall s, mfind s sing = if both s then Some (vec sing s) else None).
    { intro s. destruct (both s) eqn:Q.
      - rewrite <- Hboth in Q. destruct (HF1 _ Q) as [d [_ [Y _]]]. now rewrite at_key_invol in Y.
      - pose proof (X8 (at_key put_right s)) as Y. rewrite at_key_invol in Y. rewrite Y; [reflexivity|]. intro C. destruct (ms_keys _ _ _ _ _ _ M _ C) as [x [Z1 Z2]]. apply pair_key in Z1. subst x. congruence. }
    assert (HM2 : forall s, km t g1 g2 (at_key put_right s) = ku s).
    { intro s. rewrite km_min. unfold ku, at_key, g1, g2. destruct put_right; [now rewrite sneg_invol|apply Nat.min_comm]. }
    assert (HM3 : forall s, both s = true -> length (vec sing s) = ku s).
    { intros s Q. rewrite <- HM2. rewrite <- Hboth in Q. destruct (HF1 _ Q) as [d [Y _]]. now rewrite at_key_invol in Y. }
    assert (HM4 : w = true -> ~ svd_never_fails gesvd) by (intro Hw; destruct (X6 Hw); [discriminate|assumption]).
    assert (HM5 : w = false -> forall s l, mfind s sing = Some l -> descending greater l /\ forall x, In x l -> greater vzero x = false).
    { intros Hw s l Hl. rewrite HM1 in Hl. destruct (both s) eqn:Q; [|discriminate]. injection Hl as <-. rewrite <- Hboth in Q. destruct (HF1 _ Q) as [d [_ [_ Y]]]. rewrite at_key_invol in Y.
      split; [apply (sv_desc _ _ _ _ _ _ _ _ _ _ (Y Hw))|apply (sv_pos _ _ _ _ _ _ _ _ _ _ (Y Hw))]. }
    pose proof (pr_left t g1 g2 p e0 e1 (fun s i l => rmul (nth (i * km t g1 g2 s + l) (block_at b1 s) rzero) (of_real (nth l (vec sing (at_key put_right s)) vzero))) (fun s l j => nth (l * dr t g2 s + j) (block_at b2 s) rzero) W HP M) as PL.
    pose proof (pr_right EA t g1 g2 p e0 e1 (fun s i l => nth (i * km t g1 g2 s + l) (block_at b1 s) rzero) (fun s l j => rmul (nth (l * dr t g2 s + j) (block_at b2 s) rzero) (of_real (nth l (vec sing (at_key put_right s)) vzero))) W HP M) as PR.
    assert (PL' := fun Hw => PL (fun s d H1 H2 => sv_mul _ _ _ _ _ _ _ _ _ _ (proj2 (proj2 (HF s d H1 H2)) Hw))). clear PL.
    assert (PR' : w = false -> forall pos pt, assigns pos (t_names t) pt -> valid_pt (t_core t) pt -> let s := total (map (coord pos) g1) in
      rsum (map (fun j => rmul (rmul (nth (j * dr t g2 s + snd (joined (tlegs t) g2 pos)) (block_at b2 s) rzero) (of_real (nth j (vec sing (at_key put_right s)) vzero))) (nth (snd (joined (tlegs t) g1 pos) * km t g1 g2 (sneg (sneg s)) + j) (block_at b1 (sneg (sneg s))) rzero)) (seq 0 (km t g1 g2 s))) =
      signed ropp (exchanged_odd (leg_odd pos) (t_names t) (g2 ++ g1) + (if true && sodd s then 1 else 0)) (element t pos)).
    { intro Hw. apply PR. intros s d Hl Hin i j Hi Hj. rewrite (sv_mul _ _ _ _ _ _ _ _ _ _ (proj2 (proj2 (HF s d Hl Hin)) Hw) i j Hi Hj). apply sum_ext. intros l _. rewrite MA. f_equal. apply (ea_mul_comm _ EA). }
    clear PR.
    assert (HI : w = false -> forall s, live t g1 g2 s = true -> column_iso (dl t g1 s) (km t g1 g2 s) (block_at b1 s) /\ row_iso (km t g1 g2 s) (dr t g2 s) (block_at b2 s)).
    { intros Hw s Hs. destruct (HF1 s Hs) as [d [_ [_ Y]]]. specialize (Y Hw). split; [apply (sv_col _ _ _ _ _ _ _ _ _ _ Y)|apply (sv_row _ _ _ _ _ _ _ _ _ _ Y)]. }
    exists (if put_right then e0 else e1), (mkEdge false (if put_right then c1 else c2)), (if put_right then e1 else e0), (mkEdge false (if put_right then c2 else c1)),
      (if put_right then b1 else b2), (if put_right then b2 else b1), (fun s => if put_right then block_at b1 (sneg s) else block_at b2 s), (fun s => if put_right then block_at b2 s else block_at b1 (sneg s)), sing, w.
    split.
    2: { intro cut. destruct (svd_cut vzero greater sing cut) as [[[ru rv] sing']|ex| |]; cbn [bind]; [|reflexivity|reflexivity|reflexivity]. unfold args_u, args_v, side_tensor, Q1, Q2, com1, com2. destruct put_right; reflexivity. }
    assert (KL : forall s, km t g1 g2 (sneg s) = if put_right then ku s else kv s).
    { intro s. rewrite km_min. unfold ku, kv, g1, g2. rewrite sneg_invol. destruct put_right; reflexivity. }
    assert (KR : forall s, km t g1 g2 s = if put_right then kv s else ku s).
    { intro s. rewrite km_min. unfold ku, kv, g1, g2. destruct put_right; apply Nat.min_comm. }
    constructor; auto.
    - clear - SL1 SR1 KL KR. unfold g1, g2, Q1, Q2, com1, com2 in *. destruct put_right; (eapply side_ext; [eassumption|]); [exact KL|exact KR].
    - clear - SL1 SR1 KL KR. unfold g1, g2, Q1, Q2, com1, com2 in *. destruct put_right; (eapply side_ext; [eassumption|]); [exact KR|exact KL].
    - intro Hw. specialize (PL' Hw). specialize (PR' Hw). specialize (HI Hw). constructor; auto.
      + intros pos pt Ha Hvp. cbv zeta. specialize (PL' pos pt Ha Hvp). specialize (PR' pos pt Ha Hvp). cbv zeta in PL', PR'. clear - PL' PR' KL KR SL. unfold mu, mv, at_key, g1, g2 in *. destruct put_right; cbn [negb].
        * rewrite <- PL', KL. apply sum_ext. intros j _. rewrite !sneg_invol. unfold dr. rewrite ?KL, ?sneg_invol. reflexivity.
        * rewrite <- PR'. set (s := total (map (coord pos) fv)). rewrite <- (KR s). apply sum_ext. intros j _. pose proof (KL (sneg s)) as Z. rewrite !sneg_invol in Z |- *. unfold dr. now rewrite <- Z.
      + intros s Hb a b Ha Hbk. rewrite <- Hboth in Hb. destruct (HI _ Hb) as [I1 I2]. rewrite HM2 in I1, I2. specialize (I1 a b). specialize (I2 a b). clear - I1 I2 Ha Hbk SL. unfold mu, at_key, g1, g2, dl, dr in *. destruct put_right; [now apply I1|now apply I2].
      + intros s Hb a b Ha Hbk. rewrite <- Hboth in Hb. assert (KV : km t g1 g2 (at_key put_right (sneg s)) = kv s) by (unfold at_key; clear - KL KR SL; destruct put_right; [now rewrite sneg_invol, KR|now rewrite KL]).
        destruct (HI _ Hb) as [I1 I2]. rewrite KV in I1, I2. specialize (I1 a b). specialize (I2 a b). clear - I1 I2 Ha Hbk SL. unfold mv, at_key, g1, g2, dl, dr in *. destruct put_right; cbn [negb]; rewrite ?sneg_invol in *; [now apply I2|now apply I1].
      + exact (HM5 Hw).
  Qed.
End Main.
