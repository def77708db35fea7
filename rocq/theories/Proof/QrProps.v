(** What qr returns: product, orthonormality, triangle. *)
From Coq Require Import String Ascii List Bool Arith Lia Sorted Permutation.
From Verif Require Import Base.Outcome Base.SMap Model.Symmetry Model.Edge Model.Core Model.Transpose Model.EdgeOperator Model.Contract Model.Qr
  Spec.Blocks Spec.Fuse Spec.Sign Spec.Relabel Spec.Contract Spec.FermiContract Spec.Matrix Spec.Lapack Spec.Factor Proof.SymmetryFacts Proof.LoopFacts Proof.CoreFacts Proof.ConstructFacts Proof.ElemFacts Proof.OffsetFacts
  Proof.CopyLoopFacts Proof.GroupFacts Proof.MergeFacts Proof.TableFacts Proof.SumFacts Proof.MatrixFacts Proof.SignFacts Proof.ExchangeFacts Proof.TransposeFacts Proof.TransposeTensor Proof.TransposeNames Proof.EdgeOperatorFacts Proof.NamedOperator Proof.LegFacts Proof.MergeSplit
  Proof.SplitMerged Proof.SplitAll Proof.SplitSome Proof.SplitLeg Proof.RegroupFacts Proof.TwoLegs Proof.ContractPlain Proof.ContractNames Proof.ContractSym Proof.FactorFacts Proof.FactorSides Proof.TwoFactor Proof.QrKernel Proof.QrTensor.
Import ListNotations.
Local Open Scope list_scope.
Local Notation tlegs t := (combine (t_names t) (t_edges t)).

Section Elements.
  Context {S R : Type} {SS : Sym S} {SL : SymLaws S} {RR : Scalar R}.
  Notation entry := (S * nat)%type.
  Variables (t X : tensor S R) (g h : list nat) (c : nat) (lc ar sg : bool) (K : S -> nat) (m : S -> nat -> nat -> R).
  Hypothesis W : wf_tensor t.
  Hypothesis HP : Permutation (t_names t) (g ++ h).
  Hypothesis FX : factor t X g h c lc ar sg K m.

  Lemma fx_maps : map (fun n => emap (edge_named (tlegs X) n)) g = mp t g.
  Proof. apply map_ext_in. intros n Hn. apply (fc_free _ _ _ _ _ _ _ _ _ _ FX n Hn). Qed.
  Lemma fx_common : forall s d, In (s, d) (emap (edge_named (tlegs X) c)) <-> present (mp t g) (sneg s) = true /\ present (mp t h) s = true /\ d = K s.
  Proof.
    intros s d. pose proof (fc_common _ _ _ _ _ _ _ _ _ _ FX s) as C. split.
    - intro Hin. apply In_mfind in Hin; [|apply (factor_common_sorted _ _ _ _ _ _ _ _ _ _ FX)]. rewrite Hin in C. destruct (present (mp t g) (sneg s)), (present (mp t h) s); try discriminate. injection C as ->. auto.
    - intros [P1 [P2 ->]]. rewrite P1, P2 in C. now apply mfind_In in C.
  Qed.
  Lemma fx_element : forall pos s j, (forall n, In n (t_names X) -> mfind n pos <> None) -> coord pos c = (s, j) -> in_range (mp t g) (map (coord pos) g) -> in_range [emap (edge_named (tlegs X) c)] [(s, j)] ->
    (total (map (coord pos) g) <> sneg s -> const_at X pos = Throw OutOfRange) /\
    (total (map (coord pos) g) = sneg s -> const_at X pos = Ok (if sg && sodd s then ropp (m s (snd (joined (tlegs t) g pos)) j) else m s (snd (joined (tlegs t) g pos)) j)).
  Proof.
    intros pos s j Hpos Hc Hr Hrc. pose proof (fc_wf _ _ _ _ _ _ _ _ _ _ FX) as WX. destruct (factor_names _ _ _ _ _ _ _ _ _ _ FX) as [ND [Hn _]].
    apply one_point in Hrc as [s' [j' [d [Q [Hd Hj]]]]]. injection Q as <- <-. split; intro Ht.
    - apply (const_at_forbidden X pos (map (coord pos) (t_names X))); [exact WX|now apply assigns_all| |].
      + apply range_maps; [exact WX|]. intros n Hin. apply Hn in Hin as [Hin| ->]; [|rewrite Hc; eauto].
        rewrite (fc_free _ _ _ _ _ _ _ _ _ _ FX n Hin). unfold mp in Hr. rewrite in_range_named in Hr. specialize (Hr n Hin). exact Hr.
      + intro Z. apply Ht. rewrite (fc_names _ _ _ _ _ _ _ _ _ _ FX) in Z.
        assert (Z' : sadd (total (map (coord pos) g)) s = szero).
        { rewrite <- Z. unfold total. destruct lc; [rewrite !map_app, ssum_app; cbn [map]; now rewrite Hc, ssum_one|cbn [map]; rewrite ssum_cons, Hc; apply sadd_comm]. }
        apply sadd_eq_0 in Z'. now rewrite Z', sneg_invol.
    - apply fx_common in Hd as [P1 [P2 ->]]. apply (fc_elem _ _ _ _ _ _ _ _ _ _ FX); auto.
  Qed.
  Hypothesis EA : exact_arithmetic R.
  Hypothesis EN : @is_fermi S SS = true -> exact_negation R.
  Hypothesis EC : exact_conjugation R.
  Lemma rsum_none : forall A (f : A -> R) l, (forall x, In x l -> f x = rzero) -> rsum (map f l) = rzero.
  Proof. intros A f l H. induction l as [|x l IH]; [reflexivity|]. cbn. rewrite H by now left. rewrite (ea_add_0 _ EA). apply IH. intros y Hy. apply H. now right. Qed.

  Lemma fx_isometry : (forall s, present (mp t g) (sneg s) = true -> present (mp t h) s = true -> forall a b, a < K s -> b < K s ->
      rsum (map (fun i => rmul (rconj (m s i a)) (m s i b)) (seq 0 (merged_dim (mp t g) (sneg s)))) = ident a b) ->
    forall s a s' b, in_range [emap (edge_named (legs_of X) c)] [(s, a)] -> in_range [emap (edge_named (legs_of X) c)] [(s', b)] ->
        rsum (map (fun pt => rmul (rconj (element X ((c, (s, a)) :: combine g pt))) (element X ((c, (s', b)) :: combine g pt)))
               (points (map (fun n => emap (edge_named (legs_of X) n)) g))) = if eqb s s' then ident a b else rzero.
  Proof.
    intros Hiso s a s' b Ra Rb.
    assert (Ig : incl g (t_names t)) by (intros n Hn; eapply Permutation_in; [apply Permutation_sym; exact HP|apply in_or_app; auto]).
    destruct (factor_names _ _ _ _ _ _ _ _ _ _ FX) as [ND [Hn _]].
    assert (Ng : NoDup g) by (apply NoDup_app_inv in ND; tauto).
    assert (Nc : ~ In c g) by (intro C; apply NoDup_app_inv in ND as [_ [_ ND]]; apply (ND c C); now left).
    unfold legs_of in *. rewrite fx_maps.
    assert (Hel : forall pt s a, in_range (mp t g) pt -> in_range [emap (edge_named (tlegs X) c)] [(s, a)] ->
      element X ((c, (s, a)) :: combine g pt) = if eqb (total pt) (sneg s) then (let v := m s (snd (fuse (mp t g) pt)) a in if sg && sodd s then ropp v else v) else rzero).
    { intros pt s0 a0 Hpt Hra. pose proof (in_range_length _ _ Hpt) as Lp. unfold mp in Lp. rewrite map_length in Lp.
      assert (Hcq : map (coord ((c, (s0, a0)) :: combine g pt)) g = pt) by (rewrite coords_other by exact Nc; apply combine_coords; [exact Ng|lia]).
      destruct (fx_element ((c, (s0, a0)) :: combine g pt) s0 a0) as [X1 X2].
      - intros n Hin. rewrite find_cons. destruct (Nat.eqb_spec n c) as [->|Hne]; [discriminate|]. apply Hn in Hin as [Hin|]; [|contradiction].
        destruct (find_combine g pt n Ng) as [x [Hx _]]; [lia|exact Hin|congruence].
      - apply coord_same.
      - now rewrite Hcq.
      - exact Hra.
      - rewrite Hcq in X1, X2. unfold element, joined in *. fold (mp t g) in X2. rewrite Hcq in X2. destruct (eqb (total pt) (sneg s0)) eqn:Q.
        + apply eqb_eq in Q. now rewrite (X2 Q).
        + apply eqb_false in Q. now rewrite (X1 Q). }
    destruct (eqb s s') eqn:Es.
    - apply eqb_eq in Es. subst s'. pose proof Ra as Ra'. pose proof Rb as Rb'. apply one_point in Ra' as [x [y [d [Q [Hd Ha]]]]]. injection Q as <- <-. apply one_point in Rb' as [x [y [d' [Q [Hd' Hb]]]]]. injection Q as <- <-.
      apply (fx_common) in Hd as [P1 [P2 ->]]. apply (fx_common) in Hd' as [_ [_ ->]].
      rewrite <- (Hiso s P1 P2 a b Ha Hb).
      apply (flatten_sym EA g g (fun n => emap (edge_named (tlegs t) n))); auto.
      + intros n Hin. apply named_sorted; [exact W|now apply Ig].
      + intros pt Hpt Ht. rewrite !Hel by assumption. apply eqb_false in Ht. rewrite Ht, (ec_zero _ EC). apply (ea_mul_0 _ EA).
      + intros pt Hpt Ht. rewrite !Hel by assumption. rewrite Ht, eqb_refl. cbv zeta. pose proof (in_range_length _ _ Hpt) as Lp. rewrite map_length in Lp. rewrite combine_coords by (auto; lia).
        fold (mp t g). destruct (sg && sodd s) eqn:So; [|reflexivity].
        destruct (bool_dec (@is_fermi S SS) true) as [F|F]; [|apply not_true_is_false in F; rewrite (bose_odd F), andb_false_r in So; discriminate].
        rewrite (ec_opp _ EC), (en_mul _ (EN F)), (mul_opp_r EA (EN F)). apply (opp_invol EA (EN F)).
    - apply rsum_none. intros pt Hpt. apply in_points in Hpt. rewrite !Hel by assumption. destruct (eqb (total pt) (sneg s)) eqn:Q1.
      + destruct (eqb (total pt) (sneg s')) eqn:Q2.
        * apply eqb_eq in Q1, Q2. rewrite Q1 in Q2. apply neg_inj in Q2. subst s'. rewrite eqb_refl in Es. discriminate.
        * rewrite (ea_mul_comm _ EA). apply (ea_mul_0 _ EA).
      + rewrite (ec_zero _ EC). apply (ea_mul_0 _ EA).
  Qed.
End Elements.

Section Props.
  Context {S R : Type} {SS : Sym S} {SL : SymLaws S} {RR : Scalar R}.
  Notation entry := (S * nat)%type.
  Hypothesis EA : exact_arithmetic R.
  Hypothesis EN : @is_fermi S SS = true -> exact_negation R.
  Variable L : qr_lapack R.
  Hypothesis HL : qr_sound L.
  Variables (E : @env R) (I : qr_names) (t : tensor S R) (direction : ascii) (free : list nat) (cq cr : nat).
  Let qn := q_legs direction free t.
  Let rn := r_legs direction free t.
  Hypothesis W : wf_tensor t.
  Hypothesis HD : known_direction direction = true.
  Hypothesis HQ : i_qr_1 I <> i_qr_2 I.
  Hypothesis Hq : cq <> i_qr_1 I /\ cq <> i_qr_2 I.
  Hypothesis Hr : cr <> i_qr_1 I /\ cr <> i_qr_2 I.
  Hypothesis Nq : ~ In cq qn.
  Hypothesis Nr : ~ In cr rn.
  Hypothesis HG : @is_fermi S SS = true -> group_arrow_known (env_arrow E) t qn /\ group_arrow_known (env_arrow E) t rn.
  Let failed := exists msg, qr L E I t direction free cq cr = Throw (RuntimeError msg) /\ ~ qr_never_fails L.

  Lemma qr_reconstructs : t_blocks t <> [] -> forall (E' : @env R) (J : internal), NoDup [i_contract_0 J; i_contract_1 J; i_contract_2 J] ->
    (@is_fermi S SS = true -> group_arrow_known (env_arrow E') t qn /\ group_arrow_known (env_arrow E') t rn) ->
    failed \/ exists q r t', qr L E I t direction free cq cr = Ok (q, r) /\
      bind (contract E' J q r [(cq, cr)]) (fun p => transpose E' p (t_names t)) = Ok t' /\
      wf_tensor t' /\ t_names t' = t_names t /\ map emap (t_edges t') = map emap (t_edges t) /\ t_blocks t' = t_blocks t /\
      (@is_fermi S SS = true -> forall n, In n (t_names t) -> arrow_valid (edge_named (legs_of t) n) = true -> earrow (edge_named (legs_of t') n) = earrow (edge_named (legs_of t) n)).
  Proof.
    intros B E' J HJ HG'. destruct (qr_factors EA L HL E I t direction free cq cr W HD HQ Hq Hr Nq Nr HG) as [F|[q [r [lq [lr [sq [sr [sw [mq [mr [H1 H2]]]]]]]]]]]; [now left|right].
    destruct (reconstruct t W B EA EN E' J q r qn rn cq cr lq lr sq sr sw (kq t direction free) (kr t direction free) mq mr HJ) as [t' [T1 T2]]; try apply H2.
    - apply qr_perm.
    - intro s. unfold kq, kr. rewrite sneg_invol. apply Nat.min_comm.
    - exact HG'.
    - exists q, r, t'. auto.
  Qed.

  (** the sizes of the factors *)
  Lemma present_choice : forall l s, incl l (t_names t) -> (present (mp t l) s = true <-> exists key n, choice (map (fun n => emap (edge_named (legs_of t) n)) l) key n /\ ssum key = s).
  Proof.
    intros l s Hl. rewrite (present_iff _ _ (mp_sorted t W l Hl)). split.
    - intros [key [ds [D Hs]]]. exists key, (prod ds). split; [|exact Hs]. apply (dims_of_choice (mp t l)); [now apply mp_sorted|eauto].
    - intros [key [n [D Hs]]]. apply (dims_of_choice (mp t l)) in D as [ds [D _]]; [eauto|now apply mp_sorted].
  Qed.
  Lemma qr_incl : incl qn (t_names t) /\ incl rn (t_names t).
  Proof. pose proof (qr_perm t direction free) as P. split; intros n Hn; (eapply Permutation_in; [apply Permutation_sym; exact P|apply in_or_app; auto]). Qed.

  Lemma qr_shape :
    failed \/ exists q r, qr L E I t direction free cq cr = Ok (q, r) /\ wf_tensor q /\ wf_tensor r /\
      (t_names q = qn ++ [cq] /\ t_names r = cr :: rn \/ t_names q = cq :: qn /\ t_names r = rn ++ [cr]) /\
      (forall n, In n qn -> emap (edge_named (legs_of q) n) = emap (edge_named (legs_of t) n)) /\ (forall n, In n rn -> emap (edge_named (legs_of r) n) = emap (edge_named (legs_of t) n)) /\
      (forall s d, In (s, d) (emap (edge_named (legs_of q) cq)) <-> has_charge t qn (sneg s) /\ has_charge t rn s /\ d = Nat.min (fused_dim t qn (sneg s)) (fused_dim t rn s)) /\
      (forall s d, In (s, d) (emap (edge_named (legs_of r) cr)) <-> In (sneg s, d) (emap (edge_named (legs_of q) cq))) /\
      (@is_fermi S SS = true -> earrow (edge_named (legs_of q) cq) = true /\ earrow (edge_named (legs_of r) cr) = false).
  Proof.
    destruct (qr_factors EA L HL E I t direction free cq cr W HD HQ Hq Hr Nq Nr HG) as [F|[q [r [lq [lr [sq [sr [sw [mq [mr [H1 H2]]]]]]]]]]]; [now left|right].
    exists q, r. destruct qr_incl as [Iq Ir]. split; [exact H1|]. pose proof (qr_q _ _ _ _ _ _ _ _ _ _ _ _ _ _ H2) as FQ. pose proof (qr_r _ _ _ _ _ _ _ _ _ _ _ _ _ _ H2) as FR.
    split; [apply FQ|]. split; [apply FR|]. split; [|split; [|split; [|split; [|split]]]].
    - rewrite (fc_names _ _ _ _ _ _ _ _ _ _ FQ), (fc_names _ _ _ _ _ _ _ _ _ _ FR). rewrite (qr_ord _ _ _ _ _ _ _ _ _ _ _ _ _ _ H2). destruct lq; [left|right]; split; reflexivity.
    - apply FQ.
    - apply FR.
    - intros s d. unfold legs_of. rewrite (fx_common _ _ _ _ _ _ _ _ _ _ FQ). unfold has_charge, maps_in. rewrite <- !present_choice by assumption. unfold kq. tauto.
    - intros s d. unfold legs_of. rewrite (fx_common _ _ _ _ _ _ _ _ _ _ FQ), (fx_common _ _ _ _ _ _ _ _ _ _ FR). rewrite sneg_invol. unfold kq, kr. rewrite sneg_invol, (Nat.min_comm (merged_dim (mp t (r_legs direction free t)) (sneg s))). tauto.
    - intro F. split; [now apply FQ|now apply FR].
  Qed.

  (** the columns of Q are orthonormal *)
  Lemma qr_isometry : exact_conjugation R ->
    failed \/ exists q r, qr L E I t direction free cq cr = Ok (q, r) /\
      forall s a s' b, in_range [emap (edge_named (legs_of q) cq)] [(s, a)] -> in_range [emap (edge_named (legs_of q) cq)] [(s', b)] ->
        rsum (map (fun pt => rmul (rconj (element q ((cq, (s, a)) :: combine qn pt))) (element q ((cq, (s', b)) :: combine qn pt)))
               (points (map (fun n => emap (edge_named (legs_of q) n)) qn))) = if eqb s s' then ident a b else rzero.
  Proof.
    intro EC. destruct (qr_factors EA L HL E I t direction free cq cr W HD HQ Hq Hr Nq Nr HG) as [F|[q [r [lq [lr [sq [sr [sw [mq [mr [H1 H2]]]]]]]]]]]; [now left|right].
    exists q, r. split; [exact H1|]. apply (fx_isometry t q qn rn cq lq true sq (kq t direction free) mq W (qr_perm t direction free) (qr_q _ _ _ _ _ _ _ _ _ _ _ _ _ _ H2) EA EN EC).
    apply (qr_iso _ _ _ _ _ _ _ _ _ _ _ _ _ _ H2).
  Qed.

  (** R is triangular *)
  Lemma qr_triangular :
    failed \/ exists q r, qr L E I t direction free cq cr = Ok (q, r) /\
      forall pos pt, assigns pos (t_names r) pt -> valid_pt (t_core r) pt -> snd (joined (legs_of r) rn pos) < snd (coord pos cr) -> const_at r pos = Ok rzero.
  Proof.
    destruct (qr_factors EA L HL E I t direction free cq cr W HD HQ Hq Hr Nq Nr HG) as [F|[q [r [lq [lr [sq [sr [sw [mq [mr [H1 H2]]]]]]]]]]]; [now left|right].
    exists q, r. split; [exact H1|]. intros pos pt Ha [Hv1 Hv2] Hlt. pose proof (qr_r _ _ _ _ _ _ _ _ _ _ _ _ _ _ H2) as FR. fold qn rn in FR.
    pose proof (fc_wf _ _ _ _ _ _ _ _ _ _ FR) as WR. destruct (factor_names _ _ _ _ _ _ _ _ _ _ FR) as [ND [Hn _]].
    assert (Hj : joined (legs_of r) rn pos = joined (tlegs t) rn pos) by (unfold joined, legs_of; f_equal; apply (fx_maps t r rn qn cr lr false sr (kr t direction free) mr FR)).
    rewrite Hj in Hlt. destruct (coord pos cr) as [s j] eqn:Hc. cbn [snd] in Hlt.
    assert (Hcoord : forall n, In n (t_names r) -> exists d, In (fst (coord pos n), d) (emap (edge_named (tlegs r) n)) /\ snd (coord pos n) < d).
    { pose proof Hv1 as Hv. fold (t_edges r) in Hv. rewrite (assigns_coord pos _ pt Ha), (maps_named r WR) in Hv. now rewrite in_range_named in Hv. }
    assert (Hpos : forall n, In n (t_names r) -> mfind n pos <> None).
    { intros n Hin. unfold assigns in Ha. clear - Ha Hin. revert pt Ha. induction (t_names r) as [|x l IH]; intros [|y pt] Ha; cbn in *; try discriminate; [destruct Hin|]. injection Ha as A1 A2. destruct Hin as [<-|Hin]; [congruence|]. eapply IH; eauto. }
    assert (Rg : in_range (mp t rn) (map (coord pos) rn)).
    { unfold mp. rewrite in_range_named. intros n Hin. rewrite <- (fc_free _ _ _ _ _ _ _ _ _ _ FR n Hin). apply Hcoord. apply Hn. now left. }
    assert (Rc : in_range [emap (edge_named (tlegs r) cr)] [(s, j)]).
    { destruct (Hcoord cr) as [d [D1 D2]]; [apply Hn; now right|]. rewrite Hc in D1, D2. econstructor; [exact D1|exact D2|constructor]. }
    assert (Ht : total (map (coord pos) rn) = sneg s).
    { rewrite (assigns_coord pos _ pt Ha), (fc_names _ _ _ _ _ _ _ _ _ _ FR) in Hv2.
      assert (Z : sadd s (total (map (coord pos) rn)) = szero).
      { rewrite <- Hv2. unfold total. destruct lr; [rewrite !map_app, ssum_app; cbn [map]; rewrite Hc, ssum_one; apply sadd_comm|cbn [map]; now rewrite ssum_cons, Hc]. }
      now apply sadd_eq_0 in Z. }
    destruct (fx_element t r rn qn cr lr false sr (kr t direction free) mr FR pos s j Hpos Hc Rg Rc) as [_ X]. rewrite (X Ht).
    apply one_point in Rc as [s' [j' [d [Q [Hd Hjd]]]]]. injection Q as <- <-. apply (fx_common t r rn qn cr lr false sr (kr t direction free) mr FR) in Hd as [P1 [P2 ->]].
    rewrite (qr_tri _ _ _ _ _ _ _ _ _ _ _ _ _ _ H2 s P1 P2 _ j Hlt Hjd). f_equal.
    destruct (sr && sodd s) eqn:So; [|reflexivity]. destruct (bool_dec (@is_fermi S SS) true) as [F|F]; [|apply not_true_is_false in F; rewrite (bose_odd F), andb_false_r in So; discriminate].
    apply (opp_zero EA (EN F)).
  Qed.
End Props.
