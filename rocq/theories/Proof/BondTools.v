(** qr and svd of a tensor without symmetry once more: the size of the common edge, the singular values by themselves. *)
From Coq Require Import String Ascii List Bool Arith Lia Permutation.
From Verif Require Import Base.Outcome Base.SMap Model.Symmetry Model.Edge Model.Core Model.EdgeOperator Model.Contract Model.Misc Model.Qr Model.SvdCut Model.Svd
  Spec.Blocks Spec.Fuse Spec.Relabel Spec.Contract Spec.FermiContract Spec.Plain Spec.Lapack Spec.Factor Spec.Truncate Spec.Spectrum Spec.Svd Proof.SymmetryFacts Proof.LoopFacts Proof.CoreFacts Proof.ElemFacts Proof.LegFacts Proof.SumFacts
  Proof.TransposeNames Proof.RenameFacts Proof.RegroupFacts Proof.ContractNames Proof.ContractPlain Proof.HotContract Proof.MultipleFacts Proof.QrProps Proof.SvdProps Proof.PlainFacts Proof.PlainTools Proof.WeightedFacts.
Import ListNotations.

Section BondTools.
  Context {R : Type} {RR : Scalar R}.
  Implicit Types t r : tensor unit R.
  Hypothesis EA : exact_arithmetic R.
  Variables (E : @env R) (J : internal).
  Hypothesis HJ : NoDup [i_contract_0 J; i_contract_1 J; i_contract_2 J].

  Section Qr.
    Variables (L : qr_lapack R) (Iq : qr_names).
    Hypotheses (HL : qr_sound L) (HI : i_qr_1 Iq <> i_qr_2 Iq).
    (** the common edge is not longer than the edges of r together *)
    Lemma qr_bound : forall t K free cq cr q r d, has t K -> NoDup (keys K) ->
      cq <> i_qr_1 Iq /\ cq <> i_qr_2 Iq -> cr <> i_qr_1 Iq /\ cr <> i_qr_2 Iq -> member cq free || negb (member cq (keys K)) = true -> negb (member cr free && member cr (keys K)) = true ->
      qr L E Iq t "r"%char free cq cr = Ok (q, r) -> has q ((cq, Some d) :: without free K) ->
      d <= fold_right Nat.mul 1 (map (fun p => size (snd p)) (within free K)).
    Proof.
      intros t K free cq cr q0 r0 d0 H NK Cq Cr Nq Nr Q0 Hq0. assert (W := h_wf _ _ H).
      assert (Hq : forall n, In n (q_legs "r"%char free t) <-> In n (t_names t) /\ negb (member n free) = true) by (intro n; apply filter_In).
      assert (Hr : forall n, In n (r_legs "r"%char free t) <-> In n (t_names t) /\ member n free = true) by (intro n; apply filter_In).
      assert (Hk : forall n, In n (t_names t) -> member n (keys K) = true) by (intros n Hn; apply member_iff, slot_keys; now apply (has_in t K n H)).
      assert (X1 : ~ In cq (q_legs "r"%char free t)).
      { intro Q. apply Hq in Q as [Q1 Q2]. apply Hk in Q1. rewrite Q1 in Nq. now destruct (member cq free). }
      assert (X2 : ~ In cr (r_legs "r"%char free t)).
      { intro Q. apply Hr in Q as [Q1 Q2]. apply Hk in Q1. now rewrite Q1, Q2 in Nr. }
      assert (F : @is_fermi unit _ = true -> group_arrow_known (env_arrow E) t (q_legs "r"%char free t) /\ group_arrow_known (env_arrow E) t (r_legs "r"%char free t)) by (rewrite Nf; discriminate).
      destruct (qr_shape EA L HL E Iq t "r"%char free cq cr W eq_refl HI Cq Cr X1 X2 F) as [[msg [Th _]]|[q [r [H1 [Wq [Wr [Hn [Eq [Er [Dq [Dr _]]]]]]]]]]]; [congruence|].
      rewrite Q0 in H1. injection H1 as <- <-.
      destruct (plain_fused t K (q_legs "r"%char free t) H ltac:(intros n Hn'; apply Hq in Hn'; tauto)) as [C1 _].
      destruct (plain_fused t K (r_legs "r"%char free t) H ltac:(intros n Hn'; apply Hr in Hn'; tauto)) as [C2 C3].
      set (d := Nat.min (fused_dim t (q_legs "r"%char free t) (sneg tt)) (fused_dim t (r_legs "r"%char free t) tt)).
      assert (Dq' : In (tt, d) (emap (edge_named (legs_of q0) cq))) by (apply Dq; now repeat split).
      assert (I1 : In cq (t_names q0)) by (apply (has_in q0 _ cq Hq0); unfold slot; cbn [mfind]; rewrite eqb_refl; discriminate).
      destruct (dimension_of q0 cq Wq (h_block _ _ Hq0) I1) as [D1 D2]. rewrite (h_dim _ _ Hq0 cq) in D1. unfold slot in D1. cbn [mfind] in D1. rewrite eqb_refl in D1. injection D1 as D1.
      rewrite D2 in Dq'. destruct Dq' as [Q|[]]. injection Q as Q. rewrite D1, Q. unfold d.
      transitivity (fused_dim t (r_legs "r"%char free t) tt); [apply Nat.le_min_r|]. rewrite C3.
      change (r_legs "r"%char free t) with (filter (fun n => member n free) (t_names t)). rewrite (prod_names t K (fun n => member n free) H NK). reflexivity.
    Qed.
  End Qr.

  Section Svd.
    Context {V : Type}.
    Variables (of_real : V -> R) (vzero vjunk : V) (greater : V -> V -> bool) (gesvd : nat -> nat -> list R -> bool * (list V * list R * list R)) (Is : svd_names).
    Hypotheses (MA : associative_product R) (HS : svd_sound of_real vzero greater gesvd) (HO : strict_order greater) (HI : i_svd_u Is <> i_svd_v Is).
    (** without symmetry there is one list of values, and the first ones stay *)
    Lemma plain_cut : forall l n, n < length l ->
      svd_cut vzero greater [(tt, l)] (Some n) = Ok (map (fun sv => (fst sv, n)) [(tt, l)], of_list (map (fun sv => (sneg (fst sv), n)) [(tt, l)]), prefixes (fun _ => n) [(tt, l)]).
    Proof.
      intros l n H. unfold svd_cut, total_dimension. cbn [fold_left snd]. rewrite (proj2 (Nat.ltb_lt n (0 + length l)) H).
      assert (G : forall m i, i + m <= length l -> cut_loop vzero greater [(tt, l)] m [(tt, i)] [(tt, i)] = Ok ([(tt, i + m)], [(tt, i + m)])).
      { induction m as [|m IH]; intros i Hi; cbn [cut_loop]; [now rewrite Nat.add_0_r|].
        assert (F : exists v, find_maximum vzero greater [(tt, l)] [(tt, i)] = Ok (tt, v)).
        { unfold find_maximum. cbn [foldM bind fst snd mfind at_or_throw]. change (eqb tt tt) with true. cbn [at_or_throw bind]. destruct (Nat.eqb i (length l)); cbn [bind]; [eauto|].
          destruct (nth_error l i) as [x|] eqn:Q; [|apply nth_error_None in Q; lia]. cbn [get_or_ub bind snd]. destruct (greater x vzero); cbn [bind]; eauto. }
        destruct F as [v ->]. cbn [bind fst]. unfold increment. cbn [mfind]. change (eqb tt tt) with true. change (eqb (sneg tt) tt) with true. cbn [at_or_throw bind]. 
        change (mset tt (i + 1) [(tt, i)]) with [(tt, i + 1)]. change (mset (sneg tt) (i + 1) [(tt, i)]) with [(tt, i + 1)]. rewrite IH by lia. now replace (i + 1 + m) with (i + Datatypes.S m) by lia. }
      cbn [fold_left fst mset]. change (sneg tt) with tt. cbv zeta. rewrite G by lia. cbn [bind fst snd Nat.add]. unfold trim. cbn [foldM fst snd]. unfold prefixes. cbn [map filter fst snd]. rewrite firstn_length, Nat.min_l by lia.
      destruct (Nat.eqb_spec n 0) as [->|N]; cbn [negb].
      - reflexivity.
      - cbn [mfind]. change (eqb tt tt) with true. cbn [at_or_throw bind]. unfold resize. replace (n - length l) with 0 by lia. cbn [repeat]. rewrite app_nil_r. reflexivity.
    Qed.
    Lemma shortened_has : forall (u u' : tensor unit R) c K d n, has u ((c, Some d) :: K) -> slot K c = None -> shortened u u' c (fun _ => n) -> 0 < n -> has u' ((c, Some n) :: K).
    Proof.
      intros u u' c K d n H Nc SH Hn. assert (Wu := h_wf _ _ H).
      assert (Ic : In c (t_names u)) by (apply (has_in u _ c H); unfold slot; cbn [mfind]; rewrite eqb_refl; discriminate).
      destruct (dimension_of u c Wu (h_block _ _ H) Ic) as [_ Em].
      assert (Dc : In (tt, n) (emap (edge_named (legs_of u') c))).
      { apply (sh_common _ _ _ _ SH). split; [exact Hn|]. split; [reflexivity|]. rewrite Em. eexists. left. reflexivity. }
      assert (Ic' : In c (t_names u')) by (now rewrite (sh_names _ _ _ _ SH)).
      assert (Bl := blocks_exist u' c tt n (sh_wf _ _ _ _ SH) Ic' Dc).
      constructor; [apply SH|exact Bl|]. intro m. unfold slot. cbn [mfind].
      destruct (Nat.eq_dec m c) as [->|N].
      - rewrite eqb_refl. destruct (dimension_of u' c (sh_wf _ _ _ _ SH) Bl Ic') as [Q1 Q2]. rewrite Q1. rewrite Q2 in Dc. destruct Dc as [Q|[]]. congruence.
      - rewrite (neqb m c N). assert (Hm := h_dim _ _ H m). unfold slot in Hm. cbn [mfind] in Hm. rewrite (neqb m c N) in Hm. rewrite <- Hm.
        destruct (in_dec Nat.eq_dec m (t_names u)) as [I|I].
        + destruct (dimension_of u m Wu (h_block _ _ H) I) as [Q1 Q2]. assert (I' : In m (t_names u')) by (now rewrite (sh_names _ _ _ _ SH)).
          destruct (dimension_of u' m (sh_wf _ _ _ _ SH) Bl I') as [Q3 Q4].
          assert (Z : In (tt, dim_of u' m) (emap (edge_named (legs_of u') m))) by (rewrite Q4; now left). apply (sh_others _ _ _ _ SH) in Z; [|exact I|exact N]. rewrite Q2 in Z. destruct Z as [Z|[]]. congruence.
        + assert (I' : ~ In m (t_names u')) by (now rewrite (sh_names _ _ _ _ SH)).
          rewrite (h_dim _ _ H m). destruct (slot ((c, Some d) :: K) m) eqn:Q; [exfalso; apply I; apply (has_in u _ m H); congruence|].
          destruct (dimension u' m) eqn:Q'; [|reflexivity]. exfalso. apply I', (dimension_named u' m (sh_wf _ _ _ _ SH)). congruence.
    Qed.
    Theorem svd_parts : forall t K free cu cv cut, has t K -> NoDup (keys K) ->
      cu <> i_svd_u Is -> cv <> i_svd_v Is -> negb (member cu free && member cu (keys K)) = true -> member cv free || negb (member cv (keys K)) = true ->
      0 < cut \/ fold_right Nat.mul 1 (map (fun p => size (snd p)) (without free K)) <= cut ->
      exists u l v w, svd gesvd vzero greater E vjunk Is t free cu cv (Some cut) = Ok (u, [(tt, l)], v, w) /\ (w = true -> ~ svd_never_fails gesvd) /\
        has u ((cu, Some (length l)) :: within free K) /\ has v ((cv, Some (length l)) :: without free K) /\
        length l <= cut /\
        (fold_right Nat.mul 1 (map (fun p => size (snd p)) (without free K)) <= cut -> w = false -> forall a, in_slots K a ->
           value t a = Sum (length l) (fun c => rmul (rmul (value u ((cu, c) :: a)) (of_real (nth c l vzero))) (value v ((cv, c) :: a)))).
    Proof.
      intros t K free cu cv cut H NK Cu Cv Nu Nv Hcut. assert (W := h_wf _ _ H).
      assert (Hu : forall n, In n (u_legs free t) <-> In n (t_names t) /\ member n free = true) by (intro n; apply filter_In).
      assert (Hv : forall n, In n (v_legs free t) <-> In n (t_names t) /\ negb (member n free) = true) by (intro n; apply filter_In).
      assert (Cu' : slot K cu <> None -> member cu free = false).
      { intro Q. apply slot_keys, member_iff in Q. rewrite Q in Nu. now destruct (member cu free). }
      assert (Cv' : slot K cv <> None -> member cv free = true).
      { intro Q. apply slot_keys, member_iff in Q. rewrite Q in Nv. now destruct (member cv free). }
      assert (X1 : ~ In cu (u_legs free t)).
      { intro Q. apply Hu in Q as [Q1 Q2]. apply (has_in t K cu H) in Q1. rewrite Cu' in Q2 by exact Q1. discriminate. }
      assert (X2 : ~ In cv (v_legs free t)).
      { intro Q. apply Hv in Q as [Q1 Q2]. apply (has_in t K cv H) in Q1. rewrite Cv' in Q2 by exact Q1. discriminate. }
      assert (F : @is_fermi unit _ = true -> group_arrow_known (env_arrow E) t (u_legs free t) /\ group_arrow_known (env_arrow E) t (v_legs free t)) by (rewrite Nf; discriminate).
      destruct (svd_shape EA MA of_real vzero greater gesvd HS E vjunk Is t free cu cv W HI Cu Cv X1 X2 F) as [u [v [sing [w [H1 [Hw [Wu [Wv [Nu' [Nv' [Eu [Ev [Du [Dv [_ [Hs _]]]]]]]]]]]]]]]].
      destruct (svd_truncates EA MA of_real vzero greater gesvd HS E vjunk Is t free cu cv W HI Cu Cv X1 X2 F HO cut) as [u1 [v1 [sing1 [w1 [H1' [_ [Hno _]]]]]]].
      rewrite H1 in H1'. injection H1' as <- <- <- <-.
      destruct (plain_fused t K (u_legs free t) H ltac:(intros n Hn'; apply Hu in Hn'; tauto)) as [C1 _].
      destruct (plain_fused t K (v_legs free t) H ltac:(intros n Hn'; apply Hv in Hn'; tauto)) as [C2 C3].
      change (v_legs free t) with (filter (fun n => negb (member n free)) (t_names t)) in C3 at 2.
      rewrite (prod_names t K (fun n => negb (member n free)) H NK) in C3. fold (without free K) in C3.
      set (d := Nat.min (fused_dim t (u_legs free t) (sneg tt)) (fused_dim t (v_legs free t) tt)).
      assert (Du' : In (tt, d) (emap (edge_named (legs_of u) cu))) by (apply Du; now repeat split).
      assert (Dv' : In (tt, d) (emap (edge_named (legs_of v) cv))) by (apply Dv; exact Du').
      assert (Bd : d <= fold_right Nat.mul 1 (map (fun p => size (snd p)) (without free K))) by (rewrite <- C3; apply Nat.le_min_r).
      clearbody d. clear C1 C2 C3.
      assert (Ku : has u ((cu, Some d) :: within free K)).
      { apply (factor_has t K u (fun n => member n free) cu d H Wu); auto.
        - intro n. rewrite Nu', in_app_iff, Hu. cbn [In]. intuition.
        - intros n A B. apply Eu. now apply Hu. }
      assert (Kv : has v ((cv, Some d) :: without free K)).
      { apply (factor_has t K v (fun n => negb (member n free)) cv d H Wv); auto.
        - intro n. rewrite Nv'. cbn [In]. rewrite Hv. intuition.
        - intro Q. now rewrite Cv'.
        - intros n A B. apply Ev. now apply Hv. }
      assert (Icu : In cu (t_names u)) by (rewrite Nu'; apply in_or_app; right; now left).
      destruct (dimension_of u cu Wu (h_block _ _ Ku) Icu) as [_ Em].
      assert (Ed : dim_of u cu = d) by (rewrite Em in Du'; destruct Du' as [Q|[]]; congruence).
      rewrite Ed in Em. rewrite Em in Hs. destruct sing as [|[[] l] [|x sing]]; cbn [map fst snd] in Hs; try discriminate. injection Hs as Hl.
      assert (Fit : Spectrum.fits u (as_scalars of_real [(tt, l)]) cu false).
      { intros e s d' He Hs. exists (map of_real l). unfold as_scalars. cbn [map fst snd]. destruct s. split; [reflexivity|].
        unfold legs_of in Em. rewrite (leg_named u cu e Wu He) in Em. rewrite Em in Hs. destruct Hs as [Q|[]]. rewrite map_length. congruence. }
      destruct (multiple_at E u (as_scalars of_real [(tt, l)]) cu "u"%char false false Wu Icu eq_refl Fit) as [u' [M1 [M2 [M3 [M4 _]]]]].
      assert (Ku' : has u' ((cu, Some d) :: within free K)).
      { constructor; [exact M2| |].
        - apply (blocks_exist u' cu tt d M2); [now rewrite M3|]. unfold legs_of. rewrite M3, M4. exact Du'.
        - intro n. rewrite <- (h_dim _ _ Ku n). unfold dimension, legs_of. now rewrite M3, M4. }
      destruct (Nat.lt_ge_cases cut d) as [Hlt|Hge].
      { assert (Hpos : 0 < cut) by lia. destruct (svd_cuts EA MA of_real vzero greater gesvd HS E vjunk Is t free cu cv W HI Cu Cv X1 X2 F) as [u3 [v3 [sing3 [w3 [Z1 Z2]]]]]. rewrite H1 in Z1. injection Z1 as <- <- <- <-.
        destruct (Z2 cut (fun _ => cut)) as [u4 [v4 [Z3 [Z4 Z5]]]]; [apply plain_cut; lia|intros s l0 [Q|[]]; injection Q as <- <-; lia|].
        assert (Lf : length (firstn cut l) = cut) by (rewrite firstn_length; lia).
        exists u4, (firstn cut l), v4, w. split; [|split; [exact Hw|]].
        { rewrite Z3. unfold prefixes. cbn [map filter fst snd]. rewrite Lf. destruct (Nat.eqb_spec cut 0); [lia|reflexivity]. }
        rewrite Lf. split; [|split; [|split; [lia|intro; lia]]].
        - apply (shortened_has u u4 cu _ d cut Ku); [|exact Z4|exact Hpos]. rewrite slot_within. destruct (slot K cu) eqn:Q; [rewrite Cu' by congruence; reflexivity|now destruct (member cu free)].
        - apply (shortened_has v v4 cv _ d cut Kv); [|exact Z5|exact Hpos]. rewrite slot_without. destruct (slot K cv) eqn:Q; [rewrite Cv' by congruence; reflexivity|now destruct (member cv free)]. }
      exists u, l, v, w. rewrite Hl. split; [|split; [exact Hw|split; [exact Ku|split; [exact Kv|split; [exact Hge|]]]]].
      { apply Hno. cbn [map snd]. unfold sum_nat. cbn [fold_right]. rewrite Hl. lia. }
      intros _ ->.
      destruct (svd_reconstructs EA MA of_real vzero greater gesvd HS E vjunk Is t free cu cv W HI Cu Cv X1 X2 F ltac:(rewrite Nf; discriminate) (h_block _ _ H) E E J "u"%char "v"%char eq_refl eq_refl HJ F)
        as [u2 [v2 [sing2 [w2 [H2 [_ Hp]]]]]].
      rewrite H1 in H2. injection H2 as <- <- <- <-. destruct (Hp eq_refl) as [[u3 [t' [Q1 [Q2 [_ [Q3 [Q4 [Q5 _]]]]]]]] _]. rewrite M1 in Q1. injection Q1 as <-.
      intros a Ha. rewrite (factors_value EA E J HJ t K u' v (fun n => member n free) cu cv d t' H Ku' Kv) by auto. apply Sum_ext. intros c Hc. f_equal.
      assert (Sc : slot ((cu, Some d) :: within free K) cu = Some d) by (unfold slot; cbn [mfind]; now rewrite eqb_refl).
      assert (Hl' : length (map of_real l) = d) by now rewrite map_length.
      destruct (multiple_has E u _ cu d (map of_real l) "u"%char false false Ku Sc Hl' eq_refl) as [u3 [A1 [_ A2]]].
      change (as_scalars of_real [(tt, l)]) with [(tt, map of_real l)] in M1. rewrite M1 in A1. injection A1 as <-.
      rewrite A2.
      - f_equal. cbn [weight]. rewrite index_cons, Nat.eqb_refl. rewrite nth_indep with (d' := of_real vzero) by lia. apply map_nth.
      - intro n. rewrite index_cons. destruct (Nat.eqb n cu) eqn:Q.
        + apply Nat.eqb_eq in Q. subst n. left. rewrite Sc. exact Hc.
        + unfold slot. cbn [mfind]. rewrite (neqb n cu) by now apply Nat.eqb_neq. fold (slot (within free K) n). rewrite slot_within. destruct (member n free); [apply Ha|now right].
    Qed.
  End Svd.
End BondTools.
