(** The search of Tensor::trace for the pairs of legs. *)
From Coq Require Import String List Bool Arith Lia Permutation.
From Verif Require Import Base.Outcome Base.SMap Model.Symmetry Model.Edge Model.Core Model.EdgeOperator Model.Contract Model.Trace
  Spec.Relabel Spec.Contract Proof.SymmetryFacts Proof.CoreFacts Proof.ConstructFacts Proof.ElemFacts Proof.GroupFacts Proof.ContractNames.
Import ListNotations.

Lemma forall2_nth : forall A B (P : A -> B -> Prop) l1 l2, Forall2 P l1 l2 -> forall i a, nth_error l1 i = Some a -> exists b, nth_error l2 i = Some b /\ P a b.
Proof. intros A B P l1 l2 H. induction H; intros [|i] a H1; try discriminate; cbn in *; [injection H1 as <-; eauto|eauto]. Qed.

Section Partner.
  Variable pairs : list (nat * nat).
  Hypothesis Hnd : NoDup (map fst pairs ++ map snd pairs).
  Definition mates (a b : nat) : Prop := In (a, b) pairs \/ In (b, a) pairs.
  Definition mentioned (n : nat) : Prop := In n (map fst pairs ++ map snd pairs).

  Lemma mates_sym : forall a b, mates a b -> mates b a.
  Proof. unfold mates. tauto. Qed.
  Lemma mates_mentioned : forall a b, mates a b -> mentioned a.
  Proof. intros a b [H|H]; apply in_or_app; [left; now apply (in_map fst) in H|right; now apply (in_map snd) in H]. Qed.
  Lemma first_unique : forall l : list (nat * nat), NoDup (map fst l) -> forall a b b', In (a, b) l -> In (a, b') l -> b = b'.
  Proof.
    induction l as [|[x y] l IH]; intros H a b b' H1 H2; [destruct H1|]. cbn [map fst] in H. inversion H as [|? ? Hx Hl]; subst.
    destruct H1 as [E1|H1], H2 as [E2|H2]; try (injection E1 as -> ->); try (injection E2 as -> ->); auto; try congruence.
    - exfalso. apply Hx. now apply (in_map fst) in H2.
    - exfalso. apply Hx. now apply (in_map fst) in H1.
    - eauto.
  Qed.
  Lemma app_disjoint : forall A (l1 l2 : list A) x, NoDup (l1 ++ l2) -> In x l1 -> In x l2 -> False.
  Proof.
    intros A l1 l2 x H H1 H2. induction l1 as [|y l1 IH]; [destruct H1|]. cbn [app] in H. inversion H; subst. destruct H1 as [->|H1]; [|auto].
    match goal with H : ~ In x _ |- _ => apply H end. apply in_or_app. now right.
  Qed.
  Lemma NoDup_halves : forall A (l1 l2 : list A), NoDup (l1 ++ l2) -> NoDup l1 /\ NoDup l2.
  Proof.
    intros A l1 l2 H. induction l1 as [|y l1 IH]; [split; [constructor|exact H]|]. cbn [app] in H. inversion H as [|? ? Hy Hl]; subst. destruct (IH Hl) as [I1 I2]. split; [|exact I2].
    constructor; [|exact I1]. intro Hc. apply Hy. apply in_or_app. now left.
  Qed.
  Lemma mates_unique : forall a b b', mates a b -> mates a b' -> b = b'.
  Proof.
    destruct (NoDup_halves _ _ _ Hnd) as [N1 N2].
    assert (Hs : forall a b b', In (b, a) pairs -> In (b', a) pairs -> b = b').
    { intros a b b' H1 H2. apply (first_unique (map (fun p => (snd p, fst p)) pairs)) with a.
      - now rewrite map_map. - apply in_map_iff. exists (b, a). auto. - apply in_map_iff. exists (b', a). auto. }
    intros a b b' [H1|H1] [H2|H2].
    - eapply (first_unique pairs); eauto.
    - exfalso. apply (app_disjoint _ _ _ a Hnd); [now apply (in_map fst) in H1|now apply (in_map snd) in H2].
    - exfalso. apply (app_disjoint _ _ _ a Hnd); [now apply (in_map fst) in H2|now apply (in_map snd) in H1].
    - eauto.
  Qed.
  Lemma mates_irrefl : forall a, ~ mates a a.
  Proof. intros a H. assert (In (a, a) pairs) as Hi by (destruct H; exact H). apply (app_disjoint _ _ _ a Hnd); [now apply (in_map fst) in Hi|now apply (in_map snd) in Hi]. Qed.
  Lemma partner_some : forall n m, partner pairs n = Some m -> mates n m.
  Proof.
    unfold mates. clear Hnd. induction pairs as [|[a b] l IH]; intros n m H; [discriminate|]. cbn [partner] in H.
    destruct (Nat.eqb_spec a n) as [->|Ha]; [injection H as <-; simpl; auto|]. destruct (Nat.eqb_spec b n) as [->|Hb]; [injection H as <-; simpl; auto|].
    destruct (IH n m H); simpl; auto.
  Qed.
  Lemma partner_none : forall n, partner pairs n = None -> ~ mentioned n.
  Proof.
    unfold mentioned. clear Hnd. induction pairs as [|[a b] l IH]; intros n H; [simpl; auto|]. cbn [partner] in H.
    destruct (Nat.eqb_spec a n) as [->|Ha]; [discriminate|]. destruct (Nat.eqb_spec b n) as [->|Hb]; [discriminate|]. specialize (IH n H).
    cbn [map fst snd]. intro Hc. apply in_app_or in Hc as [[Hc|Hc]|[Hc|Hc]]; try congruence; apply IH; apply in_or_app; auto.
  Qed.
End Partner.

Section Walk.
  Context {S R : Type} {SS : Sym S} {RR : Scalar R}.
  Hypothesis Nf : @is_fermi S SS = false.
  Variables (t : tensor S R) (pairs : list (nat * nat)).
  Hypothesis Hn : NoDup (t_names t).
  Hypothesis Hnd : NoDup (map fst pairs ++ map snd pairs).
  Hypothesis Hin : incl (map fst pairs ++ map snd pairs) (t_names t).

  (** the legs from index k on have been visited *)
  Record walked (k : nat) (g : pairing) : Prop := {
    wk_pairs : Forall2 (mates pairs) (g_1 g) (g_2 g);
    wk_nodup : NoDup (g_1 g ++ g_2 g);
    wk_seen : forall j n, k <= j -> nth_error (t_names t) j = Some n -> mentioned pairs n -> In n (g_1 g ++ g_2 g);
    wk_invalid : forall j, In j (g_invalid g) <-> exists n, nth_error (t_names t) j = Some n /\ In n (g_1 g);
    wk_second : forall n, In n (g_2 g) -> exists j, k <= j /\ nth_error (t_names t) j = Some n;
    wk_traced : forall n, In n (g_traced g) <-> In n (g_1 g ++ g_2 g) }.

  Lemma same_index : forall i j n, nth_error (t_names t) i = Some n -> nth_error (t_names t) j = Some n -> i = j.
  Proof. intros i j n H1 H2. pose proof Hn as H. rewrite NoDup_nth_error in H. apply H; [apply nth_error_Some; congruence|congruence]. Qed.

  Lemma walked_mate : forall g, Forall2 (mates pairs) (g_1 g) (g_2 g) -> forall a b, mates pairs a b -> In b (g_1 g ++ g_2 g) -> In a (g_1 g ++ g_2 g).
  Proof.
    intros g H a b Hab Hb. apply in_app_or in Hb as [Hb|Hb]; apply In_nth_error in Hb as [u Hu].
    - destruct (forall2_nth _ _ _ _ _ H u b Hu) as [y [Hy Hm]]. rewrite (mates_unique pairs Hnd b a y (mates_sym pairs _ _ Hab) Hm). apply in_or_app. right. eapply nth_error_In; eauto.
    - assert (Hx : exists x, nth_error (g_1 g) u = Some x /\ mates pairs x b).
      { clear -H Hu. revert u Hu. induction H as [|x y l1 l2 Hxy H IH]; intros u Hu; [destruct u; discriminate|]. destruct u as [|u]; [injection Hu as ->; exists x; auto|apply IH; exact Hu]. }
      destruct Hx as [x [Hx Hm]]. rewrite (mates_unique pairs Hnd b a x (mates_sym pairs _ _ Hab) (mates_sym pairs _ _ Hm)). apply in_or_app. left. eapply nth_error_In; eauto.
  Qed.

  Lemma walk_step : forall k g, k < length (t_names t) -> walked (Datatypes.S k) g -> exists g', pair_step t pairs g k = Ok g' /\ walked k g'.
  Proof.
    intros k g Hk W. destruct (nth_error (t_names t) k) as [n|] eqn:En; [|apply nth_error_None in En; lia].
    unfold pair_step. destruct (mem_name k (g_invalid g)) eqn:Ei.
    - exists g. split; [reflexivity|]. destruct W as [W1 W2 W3 W4 W5 W6]. constructor; auto.
      + intros j m Hj Hm Hme. destruct (Nat.eq_dec j k) as [->|Hne]; [|apply (W3 j); auto; lia]. apply mem_name_In, W4 in Ei as [n' [E' Hn']]. rewrite Hm in E'. injection E' as ->. apply in_or_app. now left.
      + intros m Hm. destruct (W5 m Hm) as [j [H1 H2]]. exists j. split; [lia|exact H2].
    - rewrite En. cbn [get_or_ub bind]. destruct (partner pairs n) as [m|] eqn:Ep.
      2: { exists g. split; [reflexivity|]. destruct W as [W1 W2 W3 W4 W5 W6]. constructor; auto.
        - intros j x Hj Hx Hme. destruct (Nat.eq_dec j k) as [->|Hne]; [|apply (W3 j); auto; lia]. rewrite En in Hx. injection Hx as <-. now apply partner_none in Ep.
        - intros x Hx. destruct (W5 x Hx) as [j [H1 H2]]. exists j. split; [lia|exact H2]. }
      apply partner_some in Ep. rewrite Nf. cbn [bind].
      assert (Hm : In m (t_names t)) by (apply Hin; exact (mates_mentioned pairs m n (mates_sym pairs _ _ Ep))).
      apply In_nth_error in Hm as [j Hj].
      rewrite (proj2 (GroupFacts.name_index (t_names t) m j Hn) Hj). cbn [at_or_throw bind].
      eexists. split; [reflexivity|]. pose proof W as [W1 W2 W3 W4 W5 W6]. apply mem_name_false in Ei.
      assert (Nn : ~ In n (g_1 g ++ g_2 g)).
      { intro Hc. apply in_app_or in Hc as [Hc|Hc].
        - apply Ei. apply W4. eauto. - destruct (W5 n Hc) as [j' [Hj1 Hj2]]. pose proof (same_index _ _ _ En Hj2). lia. }
      assert (Nm : ~ In m (g_1 g ++ g_2 g)) by (intro Hc; apply Nn; eapply (walked_mate g W1); eauto).
      assert (Hne : m <> n) by (intros ->; exact (mates_irrefl pairs Hnd n Ep)).
      constructor; cbn [g_invalid g_1 g_2 g_traced].
      + apply Forall2_app; [exact W1|]. constructor; [now apply mates_sym|constructor].
      + apply (Permutation_NoDup (l := m :: n :: (g_1 g ++ g_2 g))).
        * rewrite <- !app_assoc. cbn [app]. etransitivity; [|apply Permutation_middle]. constructor. etransitivity; [|apply Permutation_app_head, Permutation_cons_append]. apply Permutation_middle.
        * constructor; [intros [Hc|Hc]; [congruence|auto]|]. now constructor.
      + intros j' x Hj' Hx Hme. assert (Hold : In x (g_1 g ++ g_2 g) \/ x = n).
        { destruct (Nat.eq_dec j' k) as [->|Hne']; [right; congruence|left; apply (W3 j'); auto; lia]. }
        rewrite !in_app_iff in *. simpl. destruct Hold as [[H|H]|H]; auto.
      + intro j'. rewrite in_app_iff || idtac. split.
        * intros [<-|H]; [exists m; split; [exact Hj|apply in_or_app; right; simpl; auto]|]. apply W4 in H as [x [X1 X2]]. exists x. split; [exact X1|]. apply in_or_app. now left.
        * intros [x [X1 X2]]. apply in_app_or in X2 as [X2|[<-|[]]]; [right; apply W4; eauto|left]. exact (same_index _ _ _ Hj X1).
      + intros x Hx. apply in_app_or in Hx as [Hx|[<-|[]]]; [|exists k; auto]. destruct (W5 x Hx) as [j' [H1 H2]]. exists j'. split; [lia|exact H2].
      + intro x. rewrite !in_app_iff. cbn [In]. rewrite W6, in_app_iff. tauto.
  Qed.

  Theorem walk_ok : exists g, pair_legs t pairs = Ok g /\ Forall2 (mates pairs) (g_1 g) (g_2 g) /\
    Permutation (map fst pairs ++ map snd pairs) (g_1 g ++ g_2 g) /\ (forall n, In n (g_traced g) <-> mentioned pairs n).
  Proof.
    assert (Hrun : forall k g, k <= length (t_names t) -> walked k g -> exists g', foldM (pair_step t pairs) (rev (seq 0 k)) g = Ok g' /\ walked 0 g').
    { induction k as [|k IH]; intros g Hk W; [exists g; auto|]. rewrite seq_S, rev_app_distr. cbn [rev app plus]. destruct (walk_step k g) as [g1 [G1 G2]]; [lia|exact W|].
      destruct (IH g1) as [g2 [G3 G4]]; [lia|exact G2|]. exists g2. split; [|exact G4]. cbn [foldM]. rewrite G1. exact G3. }
    destruct (Hrun (length (t_names t)) (mkPairing [] [] [] [])) as [g [G1 G2]]; [lia| |].
    { constructor; cbn [g_invalid g_1 g_2 g_traced app]; try (simpl; tauto); try constructor.
      - intros j n Hj Hjn _. assert (j < length (t_names t)) by (apply nth_error_Some; congruence). lia.
      - simpl. tauto. - intros [n [_ []]]. }
    exists g. split; [exact G1|]. destruct G2 as [W1 W2 W3 W4 W5 W6]. split; [exact W1|].
    assert (Hall : forall n, In n (g_1 g ++ g_2 g) <-> mentioned pairs n).
    { intro n. split.
      - intro H. assert (Hx : exists y, mates pairs n y).
        { apply in_app_or in H as [H|H]; apply In_nth_error in H as [u Hu].
          - destruct (forall2_nth _ _ _ _ _ W1 u n Hu) as [y [_ Hy]]. eauto.
          - clear -W1 Hu. revert u Hu. induction W1 as [|x y l1 l2 Hxy H IH]; intros u Hu; [destruct u; discriminate|]. destruct u as [|u]; [injection Hu as ->; exists x; now apply mates_sym|eapply IH; exact Hu]. }
        destruct Hx as [y Hy]. exact (mates_mentioned pairs n y Hy).
      - intro H. pose proof (Hin n H) as Hi. apply In_nth_error in Hi as [j Hj]. apply (W3 j); auto. lia. }
    split; [|intro n; rewrite W6; apply Hall]. apply NoDup_Permutation; [exact Hnd|exact W2|]. intro n. symmetry. apply Hall.
  Qed.
End Walk.
