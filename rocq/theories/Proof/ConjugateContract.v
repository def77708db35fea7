(** Conjugation goes through a contraction of bosonic tensors. *)
From Coq Require Import List Bool Arith Lia Permutation.
From Verif Require Import Base.Outcome Base.SMap Model.Symmetry Model.Edge Model.Core Model.EdgeOperator Model.Contract Model.Misc
  Spec.Blocks Spec.Sign Spec.Relabel Spec.Contract Spec.Conjugate Spec.Linear Proof.SymmetryFacts Proof.LoopFacts Proof.CoreFacts Proof.ElemFacts Proof.SumFacts Proof.LegFacts Proof.NamedOperator Proof.ConjugateFacts Proof.ContractNames Proof.ContractSym Proof.FactorFacts Proof.SquaresFacts.
From Verif Require Proof.TransposeNames Proof.AssociatePlain.
Import ListNotations.

Section Bose.
  Context {S R : Type} {SS : Sym S} {SL : SymLaws S} {RR : Scalar R}.
  Notation entry := (S * nat)%type.
  Hypotheses (Ns : @is_nosym S SS = false) (Nf : @is_fermi S SS = false) (EA : exact_arithmetic R).
  Variable real : bool.
  Hypothesis HC : conjugation_laws (R := R) real.

  Lemma conjugated_mul' : forall x y : R, conjugated real (rmul x y) = rmul (conjugated real x) (conjugated real y).
  Proof. intros x y. unfold conjugated. destruct HC as [->|[_ [_ H]]]; [reflexivity|]. destruct real; [reflexivity|apply H]. Qed.
  Lemma conjugated_0 : conjugated real rzero = rzero :> R.
  Proof. unfold conjugated. destruct HC as [->|[H _]]; [reflexivity|]. now destruct real. Qed.
  Lemma conjugated_rsum' : forall l : list R, conjugated real (rsum l) = rsum (map (conjugated real) l).
  Proof.
    unfold conjugated. destruct real; [intros l; now rewrite map_id|]. destruct HC as [H|[H0 [H1 _]]]; [discriminate|].
    induction l as [|x l IH]; [exact H0|]. cbn [map rsum fold_right] in *. fold (rsum l) in *. rewrite H1, IH. reflexivity.
  Qed.

  Lemma range_named : forall (L : list (nat * list entry)) pos pt, assigns pos (map fst L) pt -> in_range (map snd L) pt ->
    forall n m, In (n, m) L -> mfind n pos <> None /\ exists d, In (fst (coord pos n), d) m /\ snd (coord pos n) < d.
  Proof.
    induction L as [|[k l] L IH]; intros pos pt A H n m I; [destruct I|]. cbn [map fst snd] in *. inversion H as [|? ? s i d p H1 H2 H3]; subst. unfold assigns in A. cbn [map] in A. injection A as A1 A2.
    destruct I as [Q|I]; [|exact (IH pos p A2 H3 n m I)]. injection Q as <- <-. unfold coord. unfold position in *. rewrite A1. split; [discriminate|]. now exists d.
  Qed.

  (** elements of the conjugate *)
  Lemma conjugate_element : forall (E : @env R) (t c : tensor S R) pos, wf_tensor t -> conjugate E real t = Ok c ->
    (forall n, In n (t_names t) -> mfind n pos <> None /\ exists d, In (fst (coord pos n), d) (emap (edge_named (legs_of t) n)) /\ snd (coord pos n) < d) ->
    element c (negated pos) = conjugated real (element t pos).
  Proof.
    intros E t c pos W C H. assert (NF : is_nosym = true -> is_fermi = false) by (rewrite Ns; discriminate).
    destruct (conjugate_at E real t NF W) as [c' [C1 [C2 [C3 [C4 C5]]]]]. rewrite C in C1. injection C1 as <-.
    assert (A : assigns pos (t_names t) (map (coord pos) (t_names t))) by (apply assigns_all; intros n Hn; now apply H).
    assert (G : in_range (maps_of (t_edges t)) (map (coord pos) (t_names t))) by (apply range_maps; [exact W|]; intros n Hn; now apply H).
    destruct (eqb (ssum (map fst (map (coord pos) (t_names t)))) szero) eqn:Z.
    - apply (proj1 (SMap.eqb_true _ _)) in Z. destruct (C5 pos _ A (conj G Z)) as [v [V1 V2]]. unfold element. rewrite V1, V2. now rewrite (TransposeNames.bose_exchanged Nf).
    - assert (Z' : ssum (map fst (map (coord pos) (t_names t))) <> szero) by (intros Q; rewrite Q, SMap.eqb_refl in Z; discriminate).
      unfold element at 2. rewrite (const_at_forbidden t pos _ W A G Z'). rewrite conjugated_0.
      assert (A' : assigns (negated pos) (t_names c) (map (fun x => (sneg (fst x), snd x)) (map (coord pos) (t_names t)))) by (rewrite C3; now apply negated_assigns).
      assert (G' : in_range (maps_of (t_edges c)) (map (fun x => (sneg (fst x), snd x)) (map (coord pos) (t_names t)))).
      { destruct (conjugate_legs E real t c NF W C) as [_ CL]. clear - CL G SL. unfold maps_of in *. revert G. generalize (map (coord pos) (t_names t)). induction CL as [|e e' es es' [_ H] F IH]; intros l G; inversion G; subst; cbn; [constructor|].
        econstructor; [|eassumption|now apply IH]. apply H. cbn [fst]. now rewrite sneg_invol. }
      unfold element. rewrite (const_at_forbidden c _ _ C2 A' G'); [reflexivity|]. rewrite map_map. cbn [fst]. rewrite <- (map_map fst sneg), ssum_neg. intros Q. apply Z'. rewrite <- (sneg_invol (ssum _)), Q. rewrite <- (sadd_0_l (sneg szero)). apply sadd_neg_r.
  Qed.

  Lemma conjugate_maps : forall (E : @env R) (t c : tensor S R), wf_tensor t -> conjugate E real t = Ok c -> wf_tensor c /\ t_names c = t_names t /\ (t_blocks t <> [] -> t_blocks c <> []) /\
    forall n, In n (t_names t) -> forall s d, In (s, d) (emap (edge_named (legs_of c) n)) <-> In (sneg s, d) (emap (edge_named (legs_of t) n)).
  Proof.
    intros E t c W C. assert (NF : is_nosym = true -> is_fermi = false) by (rewrite Ns; discriminate).
    destruct (conjugate_at E real t NF W) as [c' [C1 [C2 [C3 [C4 C5]]]]]. rewrite C in C1. injection C1 as <-. split; [exact C2|]. split; [exact C3|]. split.
    - intros B. assert (M : maps_of (t_edges c) = map cmap (maps_of (t_edges t))).
      { clear - C4. unfold maps_of. induction C4 as [|e e' es es' [_ H] F IH]; [reflexivity|]. cbn [map]. now rewrite H, IH. }
      destruct (t_blocks t) as [|[key data] bs] eqn:Q; [now elim B|]. pose proof (wf_shape _ (wf_tcore _ W)) as HS. change (c_blocks (t_core t)) with (t_blocks t) in HS. rewrite Q in HS. cbn [shape map fst snd] in HS.
      assert (K : In (map sneg key, length data) (block_list (maps_of (t_edges c)))).
      { rewrite M. apply conj_keys; [apply (wf_maps _ (wf_tcore _ W))|]. rewrite ?map_neg_invol. change (t_edges t) with (c_edges (t_core t)). rewrite <- HS. now left. }
      intros X. pose proof (wf_shape _ (wf_tcore _ C2)) as HS'. change (c_blocks (t_core c)) with (t_blocks c) in HS'. rewrite X in HS'. change (c_edges (t_core c)) with (t_edges c) in HS'. rewrite <- HS' in K. destruct K.
    - intros n Hn s d. destruct (conjugate_legs E real t c NF W C) as [_ CL]. unfold legs_of. rewrite C3. destruct (named_pair _ _ _ CL (t_names t) (wf_rank _ W) n Hn) as [_ H]. apply H.
  Qed.
  Lemma opposite_range : forall (ms ms' : list (list entry)) pt, Forall2 (fun m m' => forall s d, In (s, d) m -> In (sneg s, d) m') ms ms' -> in_range ms pt -> in_range ms' (map opposite pt).
  Proof. intros ms ms' pt F. revert pt. induction F as [|m m' ms ms' H F IH]; intros pt G; inversion G; subst; cbn; [constructor|]. econstructor; [apply H; eassumption|assumption|now apply IH]. Qed.
  Lemma opposite_invol : forall pt : list entry, map opposite (map opposite pt) = pt.
  Proof. induction pt as [|[s i] pt IH]; [reflexivity|]. cbn [map]. unfold opposite at 1 2. cbn [fst snd]. now rewrite sneg_invol, IH. Qed.
  Lemma negated_app : forall p q : list (nat * entry), negated (p ++ q) = negated p ++ negated q.
  Proof. intros. apply map_app. Qed.

  Section Contracted.
    Variables (E : @env R) (I : internal) (A B : tensor S R) (pairs : list (nat * nat)).
    Hypotheses (HI : i_contract_1 I <> i_contract_2 I) (WA : wf_tensor A) (WB : wf_tensor B) (BA : t_blocks A <> []).
    Hypotheses (P1 : incl (map fst pairs) (t_names A)) (P2 : incl (map snd pairs) (t_names B)) (N1 : NoDup (map fst pairs)) (N2 : NoDup (map snd pairs)).
    Hypothesis HM : forall a b s d, In (a, b) pairs -> In (s, d) (emap (edge_named (legs_of A) a)) <-> In (sneg s, d) (emap (edge_named (legs_of B) b)).
    Hypothesis HL : length pairs <= 1 \/ (forall s : S, sneg s = s).
    Hypothesis HD : NoDup (free_names (t_names A) (map fst pairs) ++ free_names (t_names B) (map snd pairs)).
    Notation fA := (free_names (t_names A) (map fst pairs)).
    Notation fB := (free_names (t_names B) (map snd pairs)).
    Notation mA n := (emap (edge_named (legs_of A) n)).
    Notation mB n := (emap (edge_named (legs_of B) n)).

    Lemma find_front : forall (l : list nat) (pt : list entry) pos n, length l = length pt -> ~ In n l -> mfind n (combine l pt ++ pos) = mfind n pos.
    Proof.
      induction l as [|m l IH]; intros [|x pt] pos n L H; try discriminate; [reflexivity|]. cbn [combine app mfind]. destruct (eqb n m) eqn:Q; [apply (proj1 (SMap.eqb_true _ _)) in Q; subst; elim H; now left|].
      apply IH; [now injection L|]. intros X. apply H. now right.
    Qed.
    Lemma find_back : forall (F : nat -> list entry) (l : list nat) (pt : list entry) pos n, NoDup l -> in_range (map F l) pt -> In n l ->
      mfind n (combine l pt ++ pos) <> None /\ exists d, In (fst (coord (combine l pt ++ pos) n), d) (F n) /\ snd (coord (combine l pt ++ pos) n) < d.
    Proof.
      intros F. induction l as [|m l IH]; intros pt pos n N G J; [destruct J|]. inversion G as [|? ? s i d p H1 H2 H3]; subst. inversion N as [|? ? N' N'']; subst. unfold coord. cbn [combine app mfind]. destruct (eqb n m) eqn:Q.
      - apply (proj1 (SMap.eqb_true _ _)) in Q. subst. split; [discriminate|]. now exists d.
      - destruct J as [->|J]; [rewrite SMap.eqb_refl in Q; discriminate|]. exact (IH p pos n N'' H3 J).
    Qed.

    Theorem contract_conjugate_bose : exists A' B' p r q, conjugate E real A = Ok A' /\ conjugate E real B = Ok B' /\ contract E I A B pairs = Ok p /\
      contract E I A' B' pairs = Ok r /\ conjugate E real p = Ok q /\ t_names r = t_names q /\
      forall pos pt, assigns pos (t_names p) pt -> valid_pt (t_core p) pt -> exists v, const_at q (negated pos) = Ok v /\ const_at r (negated pos) = Ok v.
    Proof.
      assert (NF : is_nosym = true -> is_fermi = false) by (rewrite Ns; discriminate).
      destruct (conjugate_at E real A NF WA) as [A' [CA _]]. destruct (conjugate_at E real B NF WB) as [B' [CB _]].
      destruct (conjugate_maps E A A' WA CA) as [WA' [NA [BA' MA]]]. destruct (conjugate_maps E B B' WB CB) as [WB' [NB [_ MB]]].
      destruct (contract_sym_at Ns Nf EA E I A B pairs HI WA WB BA P1 P2 N1 N2 HM HL HD) as [p [R1 [R2 [R3 [R4 R5]]]]].
      destruct (contract_sym_at Ns Nf EA E I A' B' pairs HI WA' WB' (BA' BA)) as [r [Q1 [Q2 [Q3 [Q4 Q5]]]]]; rewrite ?NA, ?NB; try assumption.
      { intros a b s d Hab. assert (Ha : In a (t_names A)) by (apply P1; exact (in_map fst _ _ Hab)). assert (Hb : In b (t_names B)) by (apply P2; exact (in_map snd _ _ Hab)).
        rewrite (MA a Ha), (MB b Hb). apply HM. exact Hab. }
      rewrite NA, NB in Q3, Q4. destruct (conjugate_at E real p NF R2) as [q [C1 [C2 [C3 [_ C5]]]]].
      exists A', B', p, r, q. do 5 (split; [assumption|]). split; [congruence|]. intros pos pt Ha Hp. destruct (C5 pos pt Ha Hp) as [v [V1 V2]]. rewrite (TransposeNames.bose_exchanged Nf) in V2. cbn [signed Nat.odd] in V2.
      exists (conjugated real v). split; [exact V2|].
      assert (FA : incl fA (t_names A)) by (intros x Hx; apply filter_In in Hx; apply Hx). assert (FB : incl fB (t_names B)) by (intros x Hx; apply filter_In in Hx; apply Hx).
      assert (NP := negated_assigns pos (t_names p) pt Ha). destruct (proj1 (R4 pt) Hp) as [G1 G2].
      rewrite (Q5 (negated pos) (map opposite pt)).
      - f_equal. rewrite (R5 pos pt Ha Hp) in V1. injection V1 as <-. unfold contract_sum. rewrite conjugated_rsum', map_map. symmetry.
        assert (F2 : Forall2 (fun m m' => forall s d, In (s, d) m -> In (sneg s, d) m') (map (fun p => mA (fst p)) pairs) (map (fun p => emap (edge_named (legs_of A') (fst p))) pairs)).
        { assert (G : forall l, incl l pairs -> Forall2 (fun m m' => forall s d, In (s, d) m -> In (sneg s, d) m') (map (fun p => mA (fst p)) l) (map (fun p => emap (edge_named (legs_of A') (fst p))) l)); [|apply G, incl_refl].
          induction l as [|x l IH]; intros Hl; cbn [map]; constructor; [|apply IH; intros y Hy; apply Hl; now right]. intros s d Hs. apply MA; [apply P1; apply in_map; apply Hl; now left|]. now rewrite sneg_invol. }
        assert (F2' : Forall2 (fun m m' => forall s d, In (s, d) m -> In (sneg s, d) m') (map (fun p => emap (edge_named (legs_of A') (fst p))) pairs) (map (fun p => mA (fst p)) pairs)).
        { assert (G : forall l, incl l pairs -> Forall2 (fun m m' => forall s d, In (s, d) m -> In (sneg s, d) m') (map (fun p => emap (edge_named (legs_of A') (fst p))) l) (map (fun p => mA (fst p)) l)); [|apply G, incl_refl].
          induction l as [|x l IH]; intros Hl; cbn [map]; constructor; [|apply IH; intros y Hy; apply Hl; now right]. intros s d Hs. apply MA; [apply P1; apply in_map; apply Hl; now left|exact Hs]. }
        assert (SA : forall t : tensor S R, wf_tensor t -> incl (map fst pairs) (t_names t) -> NoDup (points (map (fun p => emap (edge_named (legs_of t) (fst p))) pairs))).
        { intros t Wt Pt. apply NoDup_points. unfold sorted_maps. rewrite Forall_map. apply Forall_forall. intros x Hx. apply (named_sorted t (fst x) Wt). apply Pt. now apply in_map. }
        apply (rsum_bij EA) with (h := map opposite).
        + apply SA; assumption.
        + apply SA; [assumption|now rewrite NA].
        + intros x Hx. apply in_points in Hx. split; [apply in_points; exact (opposite_range _ _ x F2 Hx)|].
          assert (Lx : length x = length pairs) by (clear - Hx; rewrite <- (map_length (fun p => mA (fst p)) pairs); induction Hx; cbn; congruence).
          rewrite conjugated_mul'. rewrite !negated_combine, <- !negated_app.
          assert (Hx' : in_range (map (fun n => mA n) (map fst pairs)) x) by (rewrite map_map; exact Hx).
          assert (Hy' : in_range (map (fun n => mB n) (map snd pairs)) (map opposite x)).
          { rewrite map_map. refine (opposite_range _ _ x _ Hx). assert (G : forall l, incl l pairs -> Forall2 (fun m m' => forall s d, In (s, d) m -> In (sneg s, d) m') (map (fun p => mA (fst p)) l) (map (fun p => mB (snd p)) l)); [|apply G, incl_refl].
            induction l as [|[a b] l IH]; intros Hl; cbn [map fst snd]; constructor; [|apply IH; intros y Hy; apply Hl; now right]. intros s d Hs. apply (HM a b s d); [apply Hl; now left|exact Hs]. }
          assert (RN : forall n m, In (n, m) (map (fun n => (n, mA n)) fA ++ map (fun n => (n, mB n)) fB) -> mfind n pos <> None /\ exists d, In (fst (coord pos n), d) m /\ snd (coord pos n) < d).
          { apply (range_named _ pos pt); rewrite map_app, !map_map; cbn [fst snd]; [rewrite !map_id, <- R3; exact Ha|exact G1]. }
          f_equal.
          * apply (conjugate_element E A A' _ WA CA). intros n Hn. destruct (in_dec Nat.eq_dec n (map fst pairs)) as [J|J]; [exact (find_back (fun n => mA n) _ x pos n N1 Hx' J)|].
            assert (Q : mfind n (combine (map fst pairs) x ++ pos) = mfind n pos) by (apply find_front; [now rewrite map_length|exact J]). unfold coord. rewrite Q. apply RN. apply in_or_app. left. apply in_map_iff. exists n. split; [reflexivity|]. now apply AssociatePlain.free_spec.
          * apply (conjugate_element E B B' _ WB CB). rewrite <- (negated_combine (map snd pairs) x). intros n Hn. destruct (in_dec Nat.eq_dec n (map snd pairs)) as [J|J]; [exact (find_back (fun n => mB n) _ (map opposite x) pos n N2 Hy' J)|].
            assert (Q : mfind n (combine (map snd pairs) (map opposite x) ++ pos) = mfind n pos) by (apply find_front; [now rewrite !map_length|exact J]). unfold coord. rewrite Q. apply RN. apply in_or_app. right. apply in_map_iff. exists n. split; [reflexivity|]. now apply AssociatePlain.free_spec.
        + intros x y _ _ Q. rewrite <- (opposite_invol x), Q. apply opposite_invol.
        + intros z Hz. exists (map opposite z). split; [|apply opposite_invol]. apply in_points in Hz. apply in_points. exact (opposite_range _ _ z F2' Hz).
      - rewrite Q3, <- R3. exact NP.
      - apply Q4. split.
        + refine (opposite_range _ _ pt _ G1). apply Forall2_app; [revert FA; generalize fA|revert FB; generalize fB]; induction l as [|n l IH]; intros Hl; cbn [map]; constructor; try (apply IH; intros y Hy; apply Hl; now right); intros s d Hs.
          * apply MA; [apply Hl; now left|now rewrite sneg_invol].
          * apply MB; [apply Hl; now left|now rewrite sneg_invol].
        + rewrite map_map. unfold opposite. cbn [fst]. rewrite <- (map_map fst sneg), ssum_neg, G2. rewrite <- (sadd_0_l (sneg szero)). apply sadd_neg_r.
    Qed.
  End Contracted.
End Bose.
