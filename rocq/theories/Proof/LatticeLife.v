(** Lattices stay lattices under the terms of the simple update, whatever the cut, and under the whole update with any number of processes. *)
From Coq Require Import String Ascii List Bool Arith ZArith Lia Permutation.
From Verif Require Import Base.Outcome Base.SMap Model.Symmetry Model.Edge Model.Core Model.EdgeOperator Model.Elementwise Model.Contract Model.Misc Model.ShrinkExpand Model.Qr Model.Svd Model.Auxiliaries Model.Spins Model.SimpleTensor Model.Exact Model.NetworkNew
  Spec.Blocks Spec.Relabel Spec.Contract Spec.Plain Spec.Lapack Spec.Grid Spec.SquareLattice Spec.SpinLattice Spec.Factor Spec.Truncate Spec.Spectrum Spec.Svd Spec.ExactState Spec.WeightedLattice Spec.ExactOperator Spec.LocalUpdate Spec.LatticeLife Proof.PlainFacts Proof.ExactApply Proof.ExactObserve Proof.BondTools Proof.BondUpdate Proof.TermUpdate Proof.TermMain Proof.TermSite Proof.NewFacts.
From Verif Require Model.Schedule Model.Lazy Model.Mpi Model.SimpleUpdate Spec.Bonds Spec.Runs Spec.Lattice Proof.ScheduleFacts Proof.SimpleUpdateFacts Proof.GridSum.
Import ListNotations.

Section Life.
  Context {R V : Type} {RR : Scalar R}.
  Notation tens := (tensor unit R).
  Notation net := (SimpleUpdate.network (res tens) (res (list (unit * list V)))).
  Hypotheses (EA : exact_arithmetic R) (MA : associative_product R) (MD : distributive_product R) (DV : dividing R).
  Variables (E : @env R) (J : internal) (Iq : qr_names) (Is : svd_names).
  Hypotheses (HJ : NoDup [i_contract_0 J; i_contract_1 J; i_contract_2 J]) (HN : own_names Iq Is).
  Variables (L : qr_lapack R) (gesvd : nat -> nat -> list R -> bool * (list V * list R * list R)).
  Variables (vzero vjunk : V) (greater : V -> V -> bool) (of_real : V -> R) (abs : R -> V) (vabs : V -> V) (vdiv : V -> V -> V).
  Hypotheses (HL : qr_sound L) (HS : svd_sound of_real vzero greater gesvd) (HV : modulus vzero greater of_real abs) (HR : real_division vzero greater of_real vabs vdiv).
  Variables (M N d : nat).
  Notation result := (term_result E J Iq Is L gesvd vzero vjunk greater of_real abs vabs vdiv).

  Lemma term_step : forall cut ps U dim T (x : net), 0 < cut -> term_fits M N d ps U -> simple_lattice M N d dim T x ->
    (exists msg, result cut (map z_site ps) U x = Throw (RuntimeError msg) /\ ~ qr_never_fails L) \/
    exists x' wn dim' T', result cut (map z_site ps) U x = Ok (x', wn) /\ (wn = true -> ~ svd_never_fails gesvd) /\ simple_lattice M N d dim' T' x' /\
      (forall b, dim' b = dim b \/ dim' b <= cut) /\ (msorted (SimpleUpdate.environment x) -> msorted (SimpleUpdate.environment x')).
  Proof.
    intros cut ps U dim T x Hc HT HX. destruct HT as [[[i j] [-> [Hi [Hj HU]]]]|[b [Hps [Hb HU]]]].
    - right. destruct (site_applied EA MA MD E J Iq Is HJ L gesvd vzero vjunk greater of_real abs vabs vdiv M N d dim T x HX cut i j U Hi Hj HU) as [T' [x' [A1 [A2 [A3 _]]]]].
      exists x', false, dim, T'. split; [exact A1|]. split; [discriminate|]. split; [exact A2|]. split; [now left|]. now rewrite A3.
    - assert (HO := op_has d [first_site b; second_site b] U HU).
      assert (G : forall h i j, b = (if h : bool then Right_of i j else Below i j) -> forall k b', dim_with h i j dim k b' = dim b' \/ dim_with h i j dim k b' = k).
      { intros h i j -> k b'. unfold dim_with. destruct (bond_eqb _ _); auto. }
      destruct b as [i j|i j].
      + destruct (bond_step EA MA MD DV E J Iq Is HJ HN L gesvd vzero vjunk greater of_real abs vabs vdiv HL HS HV HR M N d true i j Hb dim T x HX cut U ps HO (or_introl Hc) Hps) as [Q|[x' [wn [k [T' [A1 [A2 [A3 [A4 [_ [_ [A5 _]]]]]]]]]]]]; [now left|].
        right. exists x', wn, (dim_with true i j dim k), T'. repeat (split; [assumption|]). split; [|assumption]. intro b'. destruct (G true i j eq_refl k b') as [->| ->]; auto.
      + destruct (bond_step EA MA MD DV E J Iq Is HJ HN L gesvd vzero vjunk greater of_real abs vabs vdiv HL HS HV HR M N d false i j Hb dim T x HX cut U ps HO (or_introl Hc) Hps) as [Q|[x' [wn [k [T' [A1 [A2 [A3 [A4 [_ [_ [A5 _]]]]]]]]]]]]; [now left|].
        right. exists x', wn, (dim_with false i j dim k), T'. repeat (split; [assumption|]). split; [|assumption]. intro b'. destruct (G false i j eq_refl k b') as [->| ->]; auto.
  Qed.

  Section Made.
    Context {St : Type} (junk : R) (g : St -> R * St).
    Definition fresh (D : nat) (x : net) : Prop := exists st st', new_simple vzero greater of_real abs junk g M N D d st = Ok (x, st').
    Notation step := (fun cut ps U x => result cut (map z_site ps) U x).
    Lemma made_ok : forall D x, made M N d fresh step D x -> lattice_up_to M N d D x /\ msorted (SimpleUpdate.environment x).
    Proof.
      intros D x H. induction H as [D x [st [st' Q]]|D x cut ps U x' w _ [[dim [T [IH1 IH2]]] IH3] Hc HF Hs].
      - destruct (new_simple_ok vzero greater of_real abs junk g M N D d st) as [T [y [st2 [A1 [A2 A3]]]]]. rewrite A1 in Q. injection Q as -> _. split.
        + exists (fun _ => D), T. split; [exact A2|]. auto.
        + rewrite A3. constructor.
      - destruct (term_step cut ps U dim T x Hc HF IH1) as [[msg [Q _]]|[y [wn [dim' [T' [A1 [_ [A2 [A3 A4]]]]]]]]]; [congruence|]. rewrite A1 in Hs. injection Hs as -> _.
        split; [|now apply A4]. exists dim', T'. split; [exact A2|]. intros b Hb. specialize (IH2 b Hb). destruct (A3 b) as [->|Q]; lia.
    Qed.
    Theorem made_lattice : forall D x, made M N d fresh step D x -> lattice_up_to M N d D x.
    Proof. intros D x H. exact (proj1 (made_ok D x H)). Qed.
    Theorem made_goes_on : forall D x cut ps U, made M N d fresh step D x -> 0 < cut -> term_fits M N d ps U ->
      (exists msg, result cut (map z_site ps) U x = Throw (RuntimeError msg) /\ ~ qr_never_fails L) \/ exists x' w, result cut (map z_site ps) U x = Ok (x', w) /\ (w = true -> ~ svd_never_fails gesvd).
    Proof.
      intros D x cut ps U H Hc HF. destruct (made_ok D x H) as [[dim [T [H1 _]]] _]. destruct (term_step cut ps U dim T x Hc HF H1) as [Q|[x' [w [dim' [T' [A1 [A2 _]]]]]]]; [now left|]. right. now exists x', w.
    Qed.
  End Made.

  (** the terms of the code *)
  Lemma term_sites : forall p, Bonds.local_term p -> (forall a, In a p -> Bonds.inside (Z.of_nat M) (Z.of_nat N) a) ->
    (exists q, p = map z_site [q] /\ fst q < M /\ snd q < N) \/ exists b ps, p = map z_site ps /\ (ps = [first_site b; second_site b] \/ ps = [second_site b; first_site b]) /\ In b (bonds M N).
  Proof.
    assert (B1 : forall i j, i < M -> 1 + j < N -> In (Right_of i j) (bonds M N)) by (intros i j A B; apply GridSum.in_bonds; unfold GridSum.inner; apply andb_true_iff; split; apply Nat.ltb_lt; lia).
    assert (B2 : forall i j, 1 + i < M -> j < N -> In (Below i j) (bonds M N)) by (intros i j A B; apply GridSum.in_bonds; unfold GridSum.inner; apply andb_true_iff; split; apply Nat.ltb_lt; lia).
    assert (Z0 : forall a, Bonds.inside (Z.of_nat M) (Z.of_nat N) a -> exists i j, a = z_site (i, j) /\ i < M /\ j < N).
    { intros [u v] [A B]. cbn [fst snd] in A, B. exists (Z.to_nat u), (Z.to_nat v). unfold z_site. cbn [fst snd]. rewrite !Z2Nat.id by lia. split; [reflexivity|lia]. }
    intros p [[a ->]|[a [b [-> A]]]] HI.
    - left. destruct (Z0 a (HI a (or_introl eq_refl))) as [i [j [-> [Hi Hj]]]]. exists (i, j). now split.
    - right. destruct (Z0 a (HI a (or_introl eq_refl))) as [i [j [-> [Hi Hj]]]]. destruct (Z0 b (HI b (or_intror (or_introl eq_refl)))) as [i' [j' [-> [Hi' Hj']]]].
      unfold Bonds.adjacent, z_site in A. cbn [fst snd] in A.
      assert (C : (i' = i /\ j' = 1 + j) \/ (i' = i /\ j = 1 + j') \/ (j' = j /\ i' = 1 + i) \/ (j' = j /\ i = 1 + i')) by lia.
      destruct C as [[-> ->]|[[-> ->]|[[-> ->]|[-> ->]]]].
      + exists (Right_of i j), [(i, j); (i, 1 + j)]. split; [reflexivity|]. split; [now left|]. now apply B1.
      + exists (Right_of i j'), [(i, 1 + j'); (i, j')]. split; [reflexivity|]. split; [now right|]. now apply B1.
      + exists (Below i j), [(i, j); (1 + i, j)]. split; [reflexivity|]. split; [now left|]. now apply B2.
      + exists (Below i' j), [(1 + i', j); (i', j)]. split; [reflexivity|]. split; [now right|]. now apply B2.
  Qed.

  Notation term_t := (single_term_t E J Iq Is L gesvd vzero vjunk greater of_real abs vabs vdiv).
  Lemma result_term : forall cut p U (x x' : net) w, result cut p U x = Ok (x', w) -> term_t cut p (Ok U) x = Ok x'.
  Proof.
    intros cut p U x x' w H. unfold term_result in H. destruct (term_t cut p (Ok U) x) as [y| | |]; cbn [bind] in H; try discriminate.
    match type of H with bind ?a _ = _ => destruct a; cbn [bind] in H; try discriminate end. match type of H with bind ?a _ = _ => destruct a; cbn [bind] in H; try discriminate end. congruence.
  Qed.
  Definition good (D : nat) (x : net) : Prop := lattice_up_to M N d D x /\ msorted (SimpleUpdate.environment x).
  Lemma shaped_good : forall D x, good D x -> Lattice.shaped (Z.of_nat M) (Z.of_nat N) x.
  Proof.
    intros D x [[dim [T [H _]]] S]. split; [|exact S]. rewrite (s_lattice _ _ _ _ _ _ H). unfold Lattice.rectangle, lattice_of. rewrite !Nat2Z.id. rewrite !map_length, seq_length. split; [reflexivity|].
    intros row Hr. apply in_map_iff in Hr as [r [<- Hr]]. apply in_map_iff in Hr as [i [<- _]]. now rewrite !map_length, seq_length.
  Qed.
  Section Update.
    Variables (cut D : nat) (hs : list (Schedule.positions * nat)) (exponential : nat -> nat -> res tens).
    Hypothesis Hcut : 0 < cut.
    Hypotheses (H1 : NoDup (map fst hs)) (H2 : Bonds.oriented (map fst hs)) (H3 : forall p, In p (map fst hs) -> Bonds.local_term p /\ forall a, In a p -> Bonds.inside (Z.of_nat M) (Z.of_nat N) a).
    Hypotheses (H4 : forall p q h, In (p, h) hs -> In (q, h) hs -> length p = length q)
      (H5 : forall p h, In (p, h) hs -> exists U, exponential (length p) h = Ok U /\ fits_operator (length p) d U).
    Notation updater := (SimpleUpdate.make_updater exponential hs).
    Notation one := (SimpleUpdate.term_of (multiple_t E of_real) (site_update_t E J) (bond_update_t E J Iq Is L gesvd vzero vjunk greater vabs vdiv cut) (normalized_t vzero greater of_real abs) updater).
    Lemma one_good : forall p x, In p (map fst hs) -> good (Nat.max D cut) x -> ~ qr_never_fails L \/ exists x', one x p = Ok x' /\ good (Nat.max D cut) x'.
    Proof.
      intros p x Hp [[dim [T [G1 G2]]] G3]. apply in_map_iff in Hp as [[p' h] [Q Hp]]. cbn in Q. subst p'.
      unfold SimpleUpdate.term_of. assert (Q := SimpleUpdateFacts.updater_exponential exponential hs H4 H1 p h Hp). change (list Schedule.site) with Schedule.positions in Q. rewrite Q. cbn [Outcome.at_or_throw bind]. clear Q.
      destruct (H5 p h Hp) as [U [U1 U2]]. rewrite U1. destruct (H3 p (in_map fst _ _ Hp)) as [P1 P2].
      assert (F : exists ps, p = map z_site ps /\ term_fits M N d ps U).
      { destruct (term_sites p P1 P2) as [[q [-> [Q1 Q2]]]|[b [ps [-> [Q1 Q2]]]]].
        - exists [q]. split; [reflexivity|]. left. now exists q.
        - exists ps. split; [reflexivity|]. right. exists b. split; [exact Q1|]. split; [exact Q2|]. destruct Q1 as [->| ->]; exact U2. }
      destruct F as [ps [-> F]]. destruct (term_step cut ps U dim T x Hcut F G1) as [[msg [_ Q]]|[x' [w [dim' [T' [A1 [_ [A2 [A3 A4]]]]]]]]]; [now left|].
      right. exists x'. split; [exact (result_term _ _ _ _ _ _ A1)|]. split; [|now apply A4]. exists dim', T'. split; [exact A2|]. intros b Hb. specialize (G2 b Hb). destruct (A3 b) as [->|Q]; lia.
    Qed.
    Lemma fold_good : forall l x, (forall p, In p l -> In p (map fst hs)) -> good (Nat.max D cut) x -> ~ qr_never_fails L \/ exists x', foldM one l x = Ok x' /\ good (Nat.max D cut) x'.
    Proof.
      intros l. induction l as [|p l IH]; intros x HI G; [right; now exists x|]. cbn [foldM]. destruct (one_good p x (HI p (or_introl eq_refl)) G) as [Q|[x1 [Q1 Q2]]]; [now left|]. rewrite Q1. cbn [bind].
      apply IH; [intros q Hq; apply HI; now right|exact Q2].
    Qed.
    Lemma sweeps_in : forall A steps (gs : list (list A)) p, In p (Bonds.sweeps steps gs) -> In p (concat gs).
    Proof.
      intros A steps gs p. induction steps as [|steps IH]; [intros []|]. cbn [Bonds.sweeps]. rewrite !in_app_iff. intros [H|[H|H]]; auto.
      apply in_concat in H as [g [Hg Hp]]. apply in_concat. exists g. split; [now apply in_rev|exact Hp].
    Qed.
    Theorem update_good : forall blank steps size (x : net), 0 < size -> lattice_up_to M N d D x -> msorted (SimpleUpdate.environment x) ->
      exists x', Runs.always_reaches (Mpi.launch size (fun r => SimpleUpdate.simple_update (multiple_t E of_real) (site_update_t E J) (bond_update_t E J Iq Is L gesvd vzero vjunk greater vabs vdiv cut) (normalized_t vzero greater of_real abs) blank exponential steps size r hs x))
        (Runs.finished size (fun _ => Mpi.Stop (Ok x'))) /\ (~ qr_never_fails L \/ lattice_up_to M N d (Nat.max D cut) x' /\ msorted (SimpleUpdate.environment x')).
    Proof.
      intros blank steps size x Hsz G' G3. assert (G : good D x) by now split.
      destruct (SimpleUpdateFacts.whole_update (multiple_t E of_real) (site_update_t E J) (bond_update_t E J Iq Is L gesvd vzero vjunk greater vabs vdiv cut) (normalized_t vzero greater of_real abs) blank (Z.of_nat M) (Z.of_nat N) exponential steps hs size x H1 H2 H3 Hsz (shaped_good D x G)) as [gs [x' [Q1 [Q2 Q3]]]].
      exists x'. split; [exact Q3|]. destruct (fold_good (Bonds.sweeps steps gs) x) as [Y|[y [Y1 Y2]]].
      - intros p Hp. apply sweeps_in in Hp. exact (Permutation_in p (ScheduleFacts.simple_update_exactly_once _ _ H1 Q1) Hp).
      - destruct G' as [dim [T [G1 G2]]]. split; [|exact G3]. exists dim, T. split; [exact G1|]. intros b Hb. specialize (G2 b Hb). lia.
      - now left.
      - right. rewrite Y1 in Q2. injection Q2 as ->. exact Y2.
    Qed.
  End Update.
End Life.
