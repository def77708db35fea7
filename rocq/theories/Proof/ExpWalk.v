(** The search of Tensor::exponential for the pairs of legs. *)
From Coq Require Import String List Bool Arith Lia Permutation ZArith.
From Verif Require Import Base.Outcome Base.SMap Model.Symmetry Model.Edge Model.Core Model.EdgeOperator Model.Contract Model.Exponential
  Spec.Relabel Spec.Contract Proof.SymmetryFacts Proof.CoreFacts Proof.ConstructFacts Proof.ElemFacts Proof.GroupFacts Proof.ContractNames Proof.TraceWalk.
Import ListNotations.

Section Walk.
  Context {S R : Type} {SS : Sym S} {RR : Scalar R}.
  Variables (t : tensor S R) (pairs : list (nat * nat)).
  Hypothesis Hn : NoDup (t_names t).
  Hypothesis Hp : Permutation (t_names t) (map fst pairs ++ map snd pairs).

  Lemma xw_nd : NoDup (map fst pairs ++ map snd pairs).
  Proof. eapply Permutation_NoDup; eauto. Qed.
  Lemma xw_half : Nat.div2 (length (t_names t)) = length pairs.
  Proof. rewrite (Permutation_length Hp), app_length, !map_length. replace (length pairs + length pairs) with (2 * length pairs) by lia. apply Nat.div2_double. Qed.
  Definition touches (n : nat) (p : nat * nat) : Prop := fst p = n \/ snd p = n.
  Lemma mentions_true : forall n p, mentions n p = true <-> touches n p.
  Proof. intros n p. unfold mentions, touches. rewrite orb_true_iff, !Nat.eqb_eq. tauto. Qed.
  Lemma touches_mates : forall n p, In p pairs -> touches n p -> mates pairs n (if Nat.eqb (fst p) n then snd p else fst p).
  Proof.
    intros n [a b] Hin [H|H]; cbn [fst snd] in *; subst n.
    - rewrite Nat.eqb_refl. now left.
    - destruct (Nat.eqb_spec a b) as [->|_]; [now left|now right].
  Qed.
  Lemma touches_unique : forall n p p', In p pairs -> In p' pairs -> touches n p -> touches n p' -> p = p'.
  Proof.
    intros n [a b] [a' b'] H1 H2 T1 T2. pose proof (touches_mates _ _ H1 T1) as M1. pose proof (touches_mates _ _ H2 T2) as M2.
    pose proof (mates_unique pairs xw_nd _ _ _ M1 M2) as E. cbn [fst snd] in *. unfold touches in *. cbn [fst snd] in *.
    assert (NE : forall x y, In (x, y) pairs -> x <> y) by (intros x y Hxy ->; apply (mates_irrefl pairs xw_nd y); now left).
    assert (X : forall u v w, In (u, v) pairs -> In (w, u) pairs -> False).
    { intros u v w Hu Hw. apply (app_disjoint _ _ _ u xw_nd); [now apply (in_map fst) in Hu|now apply (in_map snd) in Hw]. }
    destruct T1 as [<-|<-], T2 as [T2|T2].
    - subst a'. rewrite Nat.eqb_refl in E. now subst.
    - subst b'. exfalso. exact (X a b a' H1 H2).
    - subst a'. exfalso. exact (X b b' a H2 H1).
    - subst b'. pose proof (NE _ _ H1). pose proof (NE _ _ H2). destruct (Nat.eqb_spec a b); [congruence|]. destruct (Nat.eqb_spec a' b); [congruence|]. now subst.
  Qed.
  Lemma touched : forall n, In n (t_names t) -> exists p, In p pairs /\ touches n p.
  Proof.
    intros n H. apply (Permutation_in n Hp) in H. apply in_app_or in H as [H|H]; apply in_map_iff in H as [p [<- H]]; exists p; split; auto; [now left|now right].
  Qed.

  Record xwalked (k : nat) (st : list nat * list (nat * nat)) : Prop := {
    xw_incl : incl (snd st) pairs;
    xw_nodup : NoDup (snd st);
    xw_seen : forall p, In p pairs -> (In p (snd st) <-> exists j n, k <= j /\ nth_error (t_names t) j = Some n /\ touches n p);
    xw_invalid : forall j n p, j < k -> nth_error (t_names t) j = Some n -> In p pairs -> touches n p -> (In j (fst st) <-> In p (snd st));
    xw_last : k < length (t_names t) -> exists l p, snd st = l ++ [p] /\ touches (last (t_names t) 0) p }.

  Lemma xw_same : forall i j n, nth_error (t_names t) i = Some n -> nth_error (t_names t) j = Some n -> i = j.
  Proof. intros i j n H1 H2. pose proof Hn as H. rewrite NoDup_nth_error in H. apply H; [apply nth_error_Some; congruence|congruence]. Qed.

  Lemma last_name : forall k n, Datatypes.S k = length (t_names t) -> nth_error (t_names t) k = Some n -> last (t_names t) 0 = n.
  Proof.
    intros k n HL H. assert (E : t_names t <> []) by (intro E; rewrite E in HL; discriminate). destruct (exists_last E) as [l [x Ex]]. rewrite Ex in *. rewrite last_last.
    rewrite app_length in HL. cbn in HL. rewrite nth_error_app2 in H by lia. replace (k - length l) with 0 in H by lia. now injection H.
  Qed.
  Lemma exp_step_ok : forall k st, k < length (t_names t) -> xwalked (Datatypes.S k) st -> exists st', exp_step t pairs st k = Ok st' /\ xwalked k st'.
  Proof.
    intros k [invalid found] Hk W. destruct (nth_error (t_names t) k) as [n|] eqn:En; [|apply nth_error_None in En; lia].
    destruct (touched n (nth_error_In _ _ En)) as [p [Pin Pt]]. pose proof W as [W1 W2 W3 W4 W5]. cbn [fst snd] in *.
    unfold exp_step. destruct (mem_name k invalid) eqn:Ei.
    - apply mem_name_In in Ei. exists (invalid, found). split; [reflexivity|]. apply (W4 k n p) in Ei; auto. constructor; cbn [fst snd]; [exact W1|exact W2| | |].
      + intros p' Hp'. rewrite (W3 p' Hp'). split.
        * intros [j [m [H1 H2]]]. exists j, m. split; [lia|exact H2].
        * intros [j [m [H1 [H2 H3]]]]. destruct (Nat.eq_dec j k) as [->|Hne]; [|exists j, m; split; [lia|auto]]. rewrite En in H2. injection H2 as <-.
          rewrite <- (touches_unique n p p' Pin Hp' Pt H3). now apply W3.
      + intros j m p' Hj. apply W4. lia.
      + intros _. destruct (Nat.eq_dec (Datatypes.S k) (length (t_names t))) as [HL|HL]; [|apply W5; lia].
        exfalso. apply W3 in Ei as [j [m [H1 [H2 _]]]]; [|exact Pin]. assert (j < length (t_names t)) by (apply nth_error_Some; congruence). lia.
    - apply mem_name_false in Ei. rewrite En. cbn [get_or_ub bind].
      assert (Ef : find (mentions n) pairs = Some p).
      { destruct (find (mentions n) pairs) as [p'|] eqn:E'.
        - apply find_some in E' as [H1 H2]. apply mentions_true in H2. f_equal. now apply (touches_unique n).
        - pose proof (find_none _ _ E' p Pin) as H. apply mentions_true in Pt. congruence. }
      rewrite Ef. destruct p as [a b].
      assert (Ia : In a (t_names t)) by (apply (Permutation_in a (Permutation_sym Hp)); apply in_or_app; left; now apply (in_map fst) in Pin).
      assert (Ib : In b (t_names t)) by (apply (Permutation_in b (Permutation_sym Hp)); apply in_or_app; right; now apply (in_map snd) in Pin).
      apply In_nth_error in Ia as [ia Ia]. apply In_nth_error in Ib as [ib Ib].
      rewrite (proj2 (GroupFacts.name_index (t_names t) a ia Hn) Ia), (proj2 (GroupFacts.name_index (t_names t) b ib Hn) Ib). cbn [at_or_throw bind].
      assert (Nf : ~ In (a, b) found) by (rewrite <- (W4 k n (a, b)); auto).
      assert (Nd : NoDup ((a, b) :: found)) by (constructor; assumption).
      assert (Inc : incl ((a, b) :: found) pairs) by (intros x [<-|Hx]; auto).
      pose proof (NoDup_incl_length Nd Inc) as HL. cbn [length] in HL. rewrite xw_half. destruct (Nat.ltb_spec (length found) (length pairs)); [|lia].
      eexists. split; [reflexivity|]. constructor; cbn [fst snd].
      + exact Inc. + exact Nd.
      + intros p' Hp'. split.
        * intros [<-|Hin].
          -- exists k, n. auto.
          -- apply W3 in Hin as [j [m [H1 H2]]]; [|exact Hp']. exists j, m. split; [lia|exact H2].
        * intros [j [m [H1 [H2 H3]]]]. destruct (Nat.eq_dec j k) as [->|Hne]; [|right; apply W3; [exact Hp'|exists j, m; split; [lia|auto]]]. rewrite En in H2. injection H2 as <-.
          left. now apply (touches_unique n).
      + intros j m p' Hj Hm Hp' Hto.
        assert (Hjk : j <> k) by lia.
        assert (Hmate : (if Nat.eqb a n then ib else ia) = j <-> (a, b) = p').
        { split.
          - intro Hji. apply (touches_unique m (a, b) p' Pin Hp'); [|exact Hto]. unfold touches. cbn [fst snd]. destruct (Nat.eqb_spec a n).
            + subst j. right. congruence. + subst j. left. congruence.
          - intros <-. destruct Pt as [Pt|Pt], Hto as [Hto|Hto]; cbn [fst snd] in *; subst; try (exfalso; apply Hjk; eapply xw_same; eauto; fail).
            + rewrite Nat.eqb_refl. eapply xw_same; eauto.
            + destruct (Nat.eqb_spec m n) as [->|_]; [exfalso; apply Hjk; eapply xw_same; eauto|]. eapply xw_same; eauto. }
        cbn [In]. rewrite Hmate. rewrite (W4 j m p') by (auto; lia). tauto.
      + intros _. destruct (Nat.eq_dec (Datatypes.S k) (length (t_names t))) as [HLk|HLk].
        * exists [], (a, b). assert (E0 : found = []).
          { destruct found as [|p0 f0]; [reflexivity|]. exfalso. destruct (proj1 (W3 p0 (W1 p0 (or_introl eq_refl))) (or_introl eq_refl)) as [j [m [H1 [H2 _]]]].
            assert (j < length (t_names t)) by (apply nth_error_Some; congruence). lia. }
          rewrite E0. split; [reflexivity|]. now rewrite (last_name k n HLk En).
        * destruct W5 as [l [p' [E1 E2]]]; [lia|]. exists ((a, b) :: l), p'. rewrite E1. split; [reflexivity|exact E2].
  Qed.
  Lemma exp_fold : forall m st, m <= length (t_names t) -> xwalked m st -> exists st', foldM (exp_step t pairs) (rev (seq 0 m)) st = Ok st' /\ xwalked 0 st'.
  Proof.
    induction m as [|m IH]; intros st Hm W; [exists st; auto|]. rewrite seq_S, rev_app_distr. cbn [plus rev app foldM].
    destruct (exp_step_ok m st) as [st1 [E1 W1]]; [lia|exact W|]. rewrite E1. cbn [bind]. apply IH; [lia|exact W1].
  Qed.
  Theorem exp_pairs_ok : exists found, exp_pairs t pairs = Ok found /\ Permutation pairs found /\
    (t_names t <> [] -> found <> [] /\ (last (t_names t) 0 = last (map fst found) 0 <-> In (last (t_names t) 0) (map fst pairs))).
  Proof.
    destruct (exp_fold (length (t_names t)) ([], []) (le_n _)) as [[invalid found] [E [W1 W2 W3 W4 W5]]].
    { constructor; cbn [fst snd]; [intros x []|constructor| | |lia].
      - intros p Hin. split; [intros []|]. intros [j [n [H1 [H2 _]]]]. assert (j < length (t_names t)) by (apply nth_error_Some; congruence). lia.
      - intros. tauto. }
    cbn [fst snd] in *. exists found. unfold exp_pairs. rewrite E. split; [reflexivity|]. split.
    - assert (NDp : NoDup pairs) by (apply (NoDup_map_inv fst), (NoDup_halves _ _ _ xw_nd)). apply NoDup_Permutation; auto.
      intro p. split; [|apply W1]. intro Hin. apply W3; [exact Hin|]. assert (Ia : In (fst p) (t_names t)) by (apply (Permutation_in _ (Permutation_sym Hp)); apply in_or_app; left; now apply in_map).
      apply In_nth_error in Ia as [j Hj]. exists j, (fst p). split; [lia|]. split; [exact Hj|now left].
    - intro Hne. destruct W5 as [l [p [E1 E2]]]; [destruct (t_names t); [congruence|simpl; lia]|]. split; [rewrite E1; destruct l; discriminate|].
      rewrite E1, map_app. cbn [map]. rewrite last_last. split.
      + intros ->. apply in_map. apply W1. rewrite E1. apply in_or_app. right. now left.
      + intro Hin. apply in_map_iff in Hin as [p' [E' Hin]]. rewrite <- E'. f_equal. apply (touches_unique (last (t_names t) 0)); auto; [|now left].
        apply W1. rewrite E1. apply in_or_app. right. now left.
  Qed.
End Walk.
