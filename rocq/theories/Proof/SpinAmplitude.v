(** The amplitude of a configuration of spins. *)
From Coq Require Import String Ascii List Bool Arith ZArith Lia Permutation.
From Verif Require Import Base.Outcome Base.SMap Model.Symmetry Model.Edge Model.Core Model.EdgeOperator Model.Elementwise Model.Contract Model.Misc Model.ShrinkExpand Model.Qr Model.Svd Model.Auxiliaries Model.Spins
  Spec.Blocks Spec.Relabel Spec.Contract Spec.Plain Spec.Lapack Spec.Grid Spec.SquareLattice Spec.SpinLattice Spec.Factor Spec.Truncate Spec.Spectrum Spec.Svd Proof.LoopFacts Proof.SumFacts Proof.CoreFacts Proof.ElemFacts Proof.PlainFacts Proof.PlainTools Proof.PlainElem Proof.SumBonds Proof.GridSum Proof.LatticeAmplitude Proof.SpinFacts.
Import ListNotations.

Section Amplitude.
  Context {R V : Type} {RR : Scalar R}.
  Notation tens := (tensor unit R).
  Hypotheses (EA : exact_arithmetic R) (MA : associative_product R) (MD : distributive_product R).
  Variables (E : @env R) (J : internal) (Iq : qr_names) (Is : svd_names) (L : qr_lapack R).
  Variables (gesvd : nat -> nat -> list R -> bool * (list V * list R * list R)) (vzero vjunk : V) (greater : V -> V -> bool) (of_real : V -> R).
  Hypotheses (HJ : NoDup [i_contract_0 J; i_contract_1 J; i_contract_2 J]) (HN : own_names Iq Is) (HL : qr_sound L) (HS : svd_sound of_real vzero greater gesvd) (HO : strict_order greater).
  Variables (M N cut d : nat) (dim : bond -> nat).
  Hypotheses (Hcut : 0 < cut) (HM : 0 < M) (HP : 0 < N).
  Implicit Types t x : tens.
  Notation is_cut := (is_cut M N dim).
  Notation state_is := (state_is M N d dim).
  Notation current := (kept M N dim (fun _ _ => False)).

  Lemma present_ok : forall st T sp cu, state_is st T sp cu -> current T sp cu -> (forall i j, i < M -> j < N -> sp i j <> (-1)%Z) ->
    exists site, present (snd st) = Ok (lattice_of M N site) /\ forall i j, i < M -> j < N -> is_cut i j (sp i j) (T i j) (site i j).
  Proof.
    clear Hcut HM HP. intros st T sp cu S0 K Hs. exists (fun i j => match cu i j with Some x => x | None => T i j end). split.
    - unfold present. rewrite (st_cut _ _ _ _ _ _ _ _ S0). unfold table, lattice_of.
      assert (G : forall (A B : Type) (f : A -> res B) (g : A -> B) l, (forall y, In y l -> f y = Ok (g y)) -> mapM f l = Ok (map g l)).
      { intros A B f g. induction l as [|y l IH]; intro H; [reflexivity|]. cbn [mapM map]. rewrite H by (now left). cbn [bind]. rewrite IH by (intros; apply H; now right). reflexivity. }
      assert (G2 : forall (A B C : Type) (h : A -> B) (f : B -> res C) l, mapM f (map h l) = mapM (fun y => f (h y)) l).
      { intros A B C h f. induction l as [|y l IH]; [reflexivity|]. cbn [mapM map]. now rewrite IH. }
      rewrite G2. apply G. intros i Hi. apply in_seq in Hi. rewrite G2. apply G. intros j Hj. apply in_seq in Hj.
      destruct (K i j ltac:(lia) ltac:(lia)) as [[Q _]|[_ [x [-> _]]]]; [exfalso; apply (Hs i j); [lia|lia|exact Q]|reflexivity].
    - intros i j Hi Hj. destruct (K i j Hi Hj) as [[Q _]|[_ [x [-> [H|[]]]]]]; [exfalso; now apply (Hs i j)|exact H].
  Qed.
  Lemma network_psi : forall T sp (site : nat -> nat -> tens), (forall i j, i < M -> j < N -> is_cut i j (sp i j) (T i j) (site i j)) ->
    network_sum M N dim (fun i j => elements (site i j)) = psi M N dim T sp.
  Proof. intros T sp site H. unfold psi. apply network_ext_range; [exact EA|]. intros i j u v l r Hi Hj Hr. now apply H. Qed.

  Theorem spin_amplitude_ok : forall st T sp cu, state_is st T sp cu -> current T sp cu -> (forall i j, i < M -> j < N -> sp i j <> (-1)%Z) -> rows_within M N dim cut ->
    unless_reported L gesvd (fun v => v = psi M N dim T sp) (spin_amplitude E J Iq Is L gesvd vzero vjunk greater of_real M N cut (snd st)).
  Proof.
    intros st T sp cu S0 K Hs Hr. destruct (present_ok st T sp cu S0 K Hs) as [site [P1 P2]]. unfold spin_amplitude. rewrite P1. cbn [bind].
    apply unless_weaken with (P := fun v => v = network_sum M N dim (fun i j => elements (site i j))); [intros v ->; now apply network_psi|].
    exact (amplitude_ok EA MA MD E J Iq Is L gesvd vzero vjunk greater of_real HJ HN HL HS HO M N cut dim site (fun i j Hi Hj => proj1 (P2 i j Hi Hj)) Hcut [] " "%char HM HP (replace_none M N dim) Hr).
  Qed.

  (** ** some spins replaced *)
  Definition new_entry (sp : nat -> nat -> Z) (T : nat -> nat -> tens) (p : nat * nat * Z) (l : list (nat * nat * tens)) : Prop :=
    let '(i, j, s) := p in if Z.eqb (sp i j) s then l = [] else exists x, l = [(i, j, x)] /\ is_cut i j s (T i j) x.
  Lemma changed_step : forall st T sp cu i j s l, state_is st T sp cu -> i < M -> j < N -> (0 <= s < Z.of_nat d)%Z ->
    exists l', new_entry sp T (i, j, s) l' /\
      bind (cell (s_spin (snd st)) i j) (fun old => if Z.eqb old s then Ok l else bind (cell (fst st) i j) (fun t => bind (cut_at E J t s) (fun x => Ok (l ++ [(i, j, x)])))) = Ok (l ++ l').
  Proof.
    intros st T sp cu i j s l S0 Hi Hj Hs. unfold new_entry. rewrite (st_spin _ _ _ _ _ _ _ _ S0), cell_table by assumption. cbn [bind]. destruct (Z.eqb (sp i j) s); [exists []; split; [reflexivity|now rewrite app_nil_r]|].
    rewrite (st_owner _ _ _ _ _ _ _ _ S0), cell_table by assumption. cbn [bind]. destruct (cut_at_ok M N d dim EA E J HJ i j (T i j) s (st_fits _ _ _ _ _ _ _ _ S0 i j Hi Hj) Hs) as [x [X1 X2]].
    rewrite X1. cbn [bind]. exists [(i, j, x)]. split; [now exists x|reflexivity].
  Qed.
  Lemma same_spins : forall T sp sp', (forall i j, i < M -> j < N -> sp i j = sp' i j) -> psi M N dim T sp = psi M N dim T sp'.
  Proof. intros T sp sp' H. unfold psi. apply network_ext_range; [exact EA|]. intros i j u v l r Hi Hj _. now rewrite H. Qed.

  Definition both : Prop := rows_within M N dim cut /\ columns_within M N dim cut.
  Lemma both_lines : both -> forall b, lines_within b M N dim cut.
  Proof. intros [H1 H2] [|]; assumption. Qed.
  Lemma put_site_at : forall (site : nat -> nat -> tens) i j x i' j', put_site site i j x i' j' = at_site site i j x i' j'.
  Proof. reflexivity. Qed.
  Theorem spin_replaced_ok : forall st T sp cu l ws hint, state_is st T sp cu -> current T sp cu -> (forall i j, i < M -> j < N -> sp i j <> (-1)%Z) -> both ->
    replaceable_spins M N d l -> ws = psi M N dim T sp ->
    unless_reported L gesvd (fun v => v = psi M N dim T (spins_with sp l)) (spin_replaced E J Iq Is L gesvd vzero vjunk greater of_real M N cut (fst st) (snd st) l ws hint).
  Proof.
    intros st T sp cu l ws hint S0 K Hs Hb Hl ->. destruct (present_ok st T sp cu S0 K Hs) as [site [P1 P2]]. pose proof (fun i j Hi Hj => proj1 (P2 i j Hi Hj)) as P3.
    assert (G : forall real, replaceable M N dim real -> network_sum M N dim (fun i j => elements (replaced site real i j)) = psi M N dim T (spins_with sp l) ->
      changed_spins E J (fst st) (snd st) l = Ok real ->
      unless_reported L gesvd (fun v => v = psi M N dim T (spins_with sp l)) (spin_replaced E J Iq Is L gesvd vzero vjunk greater of_real M N cut (fst st) (snd st) l (psi M N dim T sp) hint)).
    { intros real R1 R2 R3. unfold spin_replaced. rewrite R3. cbn [bind]. destruct real as [|e real].
      - cbn. rewrite <- R2. symmetry. now apply network_psi.
      - rewrite P1. cbn [bind]. rewrite <- R2.
        exact (amplitude_ok EA MA MD E J Iq Is L gesvd vzero vjunk greater of_real HJ HN HL HS HO M N cut dim site P3 Hcut (e :: real) hint HM HP R1 (both_lines Hb _)). }
    assert (W : forall i j s l', new_entry sp T (i, j, s) l' -> (l' = [] /\ sp i j = s) \/ exists x, l' = [(i, j, x)] /\ is_cut i j s (T i j) x).
    { intros i j s l' H. cbn in H. destruct (Z.eqb_spec (sp i j) s); [left; auto|right; exact H]. }
    destruct Hl as [|i j s Hi Hj H1|i j s s' Hi Hj H1 H2|i j s s' Hi Hj H1 H2].
    - apply (G []); [constructor| |reflexivity]. now apply network_psi.
    - destruct (changed_step st T sp cu i j s [] S0 Hi Hj H1) as [l' [A1 A2]]. apply (G l').
      + destruct (W _ _ _ _ A1) as [[-> _]|[x [-> [X _]]]]; [constructor|now constructor].
      + apply network_psi. intros i' j' Hi' Hj'. cbn [spins_with fold_left]. rewrite (Nat.eqb_sym i i'), (Nat.eqb_sym j j').
        destruct (W _ _ _ _ A1) as [[-> Q]|[x [-> X]]]; cbn [replaced fold_left fst snd].
        * destruct (Nat.eqb_spec i' i) as [->|]; [destruct (Nat.eqb_spec j' j) as [->|]|]; cbn [andb]; try rewrite <- Q; now apply P2.
        * unfold put_site. destruct (Nat.eqb_spec i' i) as [->|]; [destruct (Nat.eqb_spec j' j) as [->|]|]; cbn [andb]; try exact X; now apply P2.
      + unfold changed_spins. cbn [foldM]. rewrite A2. reflexivity.
    - destruct (changed_step st T sp cu i j s [] S0 Hi ltac:(lia) H1) as [l1 [A1 A2]]. destruct (changed_step st T sp cu i (1 + j) s' l1 S0 Hi Hj H2) as [l2 [B1 B2]]. apply (G (l1 ++ l2)).
      + destruct (W _ _ _ _ A1) as [[-> _]|[x [-> [X _]]]]; destruct (W _ _ _ _ B1) as [[-> _]|[y [-> [Y _]]]]; cbn [app]; constructor; (assumption || lia).
      + apply network_psi. intros i' j' Hi' Hj'. cbn [spins_with fold_left]. rewrite (Nat.eqb_sym i i'), (Nat.eqb_sym j j'), (Nat.eqb_sym (1 + j) j').
        destruct (W _ _ _ _ A1) as [[-> Q]|[x [-> X]]]; destruct (W _ _ _ _ B1) as [[-> Q']|[y [-> Y]]]; cbn [app replaced fold_left fst snd]; unfold put_site;
          (destruct (Nat.eqb_spec i' i) as [->|]; [destruct (Nat.eqb_spec j' (1 + j)) as [->|]; [|destruct (Nat.eqb_spec j' j) as [->|]]|]); cbn [andb];
          try (rewrite (proj2 (Nat.eqb_neq (1 + j) j)) by lia); cbn [andb];
          try exact X; try exact Y; try rewrite <- Q; try rewrite <- Q'; now apply P2.
      + unfold changed_spins. cbn [foldM]. rewrite A2. cbn [bind app]. rewrite B2. reflexivity.
    - destruct (changed_step st T sp cu i j s [] S0 ltac:(lia) Hj H1) as [l1 [A1 A2]]. destruct (changed_step st T sp cu (1 + i) j s' l1 S0 Hi Hj H2) as [l2 [B1 B2]]. apply (G (l1 ++ l2)).
      + destruct (W _ _ _ _ A1) as [[-> _]|[x [-> [X _]]]]; destruct (W _ _ _ _ B1) as [[-> _]|[y [-> [Y _]]]]; cbn [app]; constructor; (assumption || lia).
      + apply network_psi. intros i' j' Hi' Hj'. cbn [spins_with fold_left]. rewrite (Nat.eqb_sym i i'), (Nat.eqb_sym j j'), (Nat.eqb_sym (1 + i) i').
        destruct (W _ _ _ _ A1) as [[-> Q]|[x [-> X]]]; destruct (W _ _ _ _ B1) as [[-> Q']|[y [-> Y]]]; cbn [app replaced fold_left fst snd]; unfold put_site;
          (destruct (Nat.eqb_spec i' (1 + i)) as [->|]; [|destruct (Nat.eqb_spec i' i) as [->|]]); (destruct (Nat.eqb_spec j' j) as [->|]); cbn [andb];
          try (rewrite (proj2 (Nat.eqb_neq (1 + i) i)) by lia); cbn [andb];
          try exact X; try exact Y; try rewrite <- Q; try rewrite <- Q'; now apply P2.
      + unfold changed_spins. cbn [foldM]. rewrite A2. cbn [bind app]. rewrite B2. reflexivity.
  Qed.
End Amplitude.
