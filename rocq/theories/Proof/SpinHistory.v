(** Amplitudes and gradients after any sequence of actions. *)
From Coq Require Import String Ascii List Bool Arith ZArith Lia Permutation.
From Verif Require Import Base.Outcome Base.SMap Model.Symmetry Model.Edge Model.Core Model.EdgeOperator Model.Elementwise Model.Contract Model.Misc Model.ShrinkExpand Model.Qr Model.Svd Model.Auxiliaries Model.Spins
  Spec.Blocks Spec.Relabel Spec.Contract Spec.Plain Spec.Lapack Spec.Grid Spec.SquareLattice Spec.SpinLattice Spec.Factor Spec.Truncate Spec.Spectrum Spec.Svd Proof.CoreFacts Proof.SpinFacts Proof.SpinAmplitude Proof.SpinGradient.
Import ListNotations.

Section History.
  Context {R V : Type} {RR : Scalar R}.
  Notation tens := (tensor unit R).
  Hypotheses (EA : exact_arithmetic R) (MA : associative_product R) (MD : distributive_product R).
  Variables (E : @env R) (J : internal) (Iq : qr_names) (Is : svd_names) (L : qr_lapack R).
  Variables (gesvd : nat -> nat -> list R -> bool * (list V * list R * list R)) (vzero vjunk : V) (greater : V -> V -> bool) (of_real : V -> R).
  Hypotheses (HJ : NoDup [i_contract_0 J; i_contract_1 J; i_contract_2 J]) (HN : own_names Iq Is) (HL : qr_sound L) (HS : svd_sound of_real vzero greater gesvd) (HO : strict_order greater).
  Variables (M N cut d : nat) (dim : bond -> nat).
  Hypotheses (Hcut : 0 < cut).
  Implicit Types h : list (@action R).
  Notation amp c := (spin_amplitude E J Iq Is L gesvd vzero vjunk greater of_real M N cut c).
  Notation current := (kept M N dim (fun _ _ => False)).

  Lemma careful_current : forall h T (sp : nat -> nat -> Z) cu, careful h -> kept M N dim (stale h) T sp cu -> current T sp cu.
  Proof.
    intros h T sp cu C K i j Hi Hj. destruct (K i j Hi Hj) as [A|[A [x [B [D|D]]]]]; [now left| |].
    - right. split; [exact A|]. exists x. auto.
    - exfalso. exact (careful_fresh h i j C D).
  Qed.
  Lemma configured_reached : forall T c sp, configured E J M N dim d T c sp ->
    exists owner cu, state_is M N d dim (owner, c) T sp cu /\ current T sp cu /\ forall i j, i < M -> j < N -> sp i j <> (-1)%Z.
  Proof.
    intros T c sp [T0 [h [owner [F [P [C [Run H]]]]]]]. destruct (run_ok M N d dim EA E J HJ T0 F h P) as [st [cu [R1 [R2 R3]]]].
    change (lattice_of M N T0) with (table M N T0) in Run. rewrite R1 in Run. injection Run as ->. exists owner, cu. pose proof (careful_current _ _ _ _ C R3) as K. split; [|split].
    - destruct R2 as [A1 A2 A3 A4 A5]. constructor; auto.
      + rewrite A1. apply table_ext. intros i j Hi Hj. symmetry. now apply H.
      + rewrite A3. apply table_ext. intros i j Hi Hj. symmetry. now apply H.
      + intros i j Hi Hj. destruct (H i j Hi Hj) as [-> _]. now apply A4.
      + intros i j Hi Hj. destruct (H i j Hi Hj) as [_ [-> _]]. now apply A5.
    - intros i j Hi Hj. destruct (H i j Hi Hj) as [H1 [H2 _]]. rewrite H1, H2. now apply K.
    - intros i j Hi Hj. now apply H.
  Qed.
  Theorem run_defined : forall T0 h, (forall i j, i < M -> j < N -> fits_spin M N dim d i j (T0 i j)) -> Forall (proper M N dim d) h ->
    exists c, run E J M N h (lattice_of M N T0, fresh M N) = Ok (lattice_of M N (tensor_after T0 h), c) /\ s_spin c = map (fun i => map (spin_after h i) (seq 0 N)) (seq 0 M).
  Proof.
    intros T0 h F P. destruct (run_ok M N d dim EA E J HJ T0 F h P) as [[o c] [cu [R1 [R2 _]]]]. exists c. split.
    - etransitivity; [exact R1|]. f_equal. f_equal. exact (st_owner _ _ _ _ _ _ _ _ R2).
    - exact (st_spin _ _ _ _ _ _ _ _ R2).
  Qed.
  Theorem configured_by : forall T0 h, (forall i j, i < M -> j < N -> fits_spin M N dim d i j (T0 i j)) -> Forall (proper M N dim d) h -> careful h ->
    (forall i j, i < M -> j < N -> spin_after h i j <> (-1)%Z) ->
    exists c, run E J M N h (lattice_of M N T0, fresh M N) = Ok (lattice_of M N (tensor_after T0 h), c) /\ configured E J M N dim d (tensor_after T0 h) c (spin_after h).
  Proof.
    intros T0 h F P C S0. destruct (run_defined T0 h F P) as [c [R1 _]]. exists c. split; [exact R1|]. exists T0, h, (lattice_of M N (tensor_after T0 h)). split; [exact F|]. split; [exact P|]. split; [exact C|]. split; [exact R1|]. intros i j Hi Hj. auto.
  Qed.
  Theorem amplitude_configured : forall T c sp, 0 < M -> 0 < N -> configured E J M N dim d T c sp -> rows_within M N dim cut -> unless_reported L gesvd (fun v => v = psi M N dim T sp) (amp c).
  Proof.
    intros T c sp HM HP C Hr. destruct (configured_reached T c sp C) as [o [cu [S0 [K Hs]]]].
    exact (spin_amplitude_ok EA MA MD E J Iq Is L gesvd vzero vjunk greater of_real HJ HN HL HS HO M N cut d dim Hcut HM HP (o, c) T sp cu S0 K Hs Hr).
  Qed.
  Theorem replaced_configured : forall T c sp l ws hint, 0 < M -> 0 < N -> configured E J M N dim d T c sp -> rows_within M N dim cut -> columns_within M N dim cut ->
    replaceable_spins M N d l -> ws = psi M N dim T sp ->
    unless_reported L gesvd (fun v => v = psi M N dim T (spins_with sp l)) (spin_replaced E J Iq Is L gesvd vzero vjunk greater of_real M N cut (lattice_of M N T) c l ws hint).
  Proof.
    intros T c sp l ws hint HM HP C Hr Hc Hl Hw. destruct (configured_reached T c sp C) as [o [cu [S0 [K Hs]]]].
    pose proof (spin_replaced_ok EA MA MD E J Iq Is L gesvd vzero vjunk greater of_real HJ HN HL HS HO M N cut d dim Hcut HM HP (o, c) T sp cu l ws hint S0 K Hs (Logic.conj Hr Hc) Hl Hw) as X.
    pose proof (st_owner _ _ _ _ _ _ _ _ S0) as Ho. cbn [fst snd] in X, Ho. rewrite Ho in X. exact X.
  Qed.
  Theorem initialized : forall T sp, (forall i j, i < M -> j < N -> fits_spin M N dim d i j (T i j)) -> (forall i j, i < M -> j < N -> (0 <= sp i j < Z.of_nat d)%Z) ->
    exists c, initialize_spin E J M N (lattice_of M N T) (fun i j => Ok (sp i j)) (fresh M N) = Ok c /\ configured E J M N dim d T c sp.
  Proof.
    intros T sp F Hs. set (l := flat_map (fun i => map (pair i) (seq 0 N)) (seq 0 M)). set (h := map (fun ij => SetSpin (fst ij) (snd ij) (sp (fst ij) (snd ij))) l : list (@action R)).
    assert (Hl : forall i j, In (i, j) l <-> i < M /\ j < N) by (intros; apply in_all_sites).
    assert (P : Forall (proper M N dim d) h).
    { apply Forall_forall. intros a Ha. apply in_map_iff in Ha as [[i j] [<- H]]. apply Hl in H as [H1 H2]. cbn. specialize (Hs i j H1 H2). repeat split; auto; lia. }
    assert (Kt : Forall (@keeps_tensors R) h) by (apply Forall_forall; intros a Ha; apply in_map_iff in Ha as [ij [<- _]]; exact I).
    assert (Sp : forall i j, i < M -> j < N -> spin_after h i j = sp i j).
    { intros i j Hi Hj. assert (G : forall l' s0, fold_left (fun s (a : @action R) => match a with SetSpin i' j' s' => if Nat.eqb i' i && Nat.eqb j' j then s' else s | _ => s end) (map (fun ij => SetSpin (fst ij) (snd ij) (sp (fst ij) (snd ij))) l') s0 = if existsb (fun ij => Nat.eqb (fst ij) i && Nat.eqb (snd ij) j) l' then sp i j else s0).
      { induction l' as [|[a b] l' IH]; intro s0; [reflexivity|]. cbn [map fold_left existsb fst snd]. rewrite IH. destruct (Nat.eqb_spec a i) as [->|]; [destruct (Nat.eqb_spec b j) as [->|]|]; cbn [andb orb]; destruct existsb; reflexivity. }
      unfold spin_after, h. rewrite G. replace (existsb _ l) with true; [reflexivity|]. symmetry. apply existsb_exists. exists (i, j). split; [now apply Hl|]. cbn. now rewrite !Nat.eqb_refl. }
    destruct (configured_by T h F P (keeps_careful h Kt)) as [c [R1 C]]; [intros i j Hi Hj; rewrite Sp by assumption; specialize (Hs i j Hi Hj); lia|].
    assert (TT : forall i j, tensor_after T h i j = T i j) by (intros; now apply keeps_tensor_after).
    exists c. split.
    - unfold initialize_spin. fold l.
      assert (G : forall l' c0 o' c1, run E J M N (map (fun ij => SetSpin (fst ij) (snd ij) (sp (fst ij) (snd ij))) l') (lattice_of M N T, c0) = Ok (o', c1) ->
        foldM (fun c ij => bind (Ok (sp (fst ij) (snd ij))) (fun s => set_spin E J (lattice_of M N T) c (fst ij) (snd ij) s)) l' c0 = Ok c1).
      { induction l' as [|[a b] l' IH]; intros c0 o' c1 H; [cbn in H |- *; congruence|]. unfold run in H. cbn [map foldM act fst snd bind] in H |- *.
        destruct (set_spin E J (lattice_of M N T) c0 a b (sp a b)) as [c2| | |]; cbn [bind] in H |- *; try discriminate. exact (IH _ _ _ H). }
      exact (G l _ _ _ R1).
    - exists T, h, (lattice_of M N (tensor_after T h)). split; [exact F|]. split; [exact P|]. split; [exact (keeps_careful h Kt)|]. split; [exact R1|].
      intros i j Hi Hj. split; [now rewrite TT|]. split; [now rewrite Sp|]. specialize (Hs i j Hi Hj). lia.
  Qed.

  Theorem amplitude_careful : forall T0 h, 0 < M -> 0 < N -> (forall i j, i < M -> j < N -> fits_spin M N dim d i j (T0 i j)) -> rows_within M N dim cut ->
    Forall (proper M N dim d) h -> careful h -> (forall i j, i < M -> j < N -> spin_after h i j <> (-1)%Z) ->
    exists c, run E J M N h (lattice_of M N T0, fresh M N) = Ok (lattice_of M N (tensor_after T0 h), c) /\
      unless_reported L gesvd (fun v => v = psi M N dim (tensor_after T0 h) (spin_after h)) (amp c).
  Proof.
    intros T0 h HM HP F Hr P C S0. destruct (configured_by T0 h F P C S0) as [c [R1 R2]]. exists c. split; [exact R1|]. now apply amplitude_configured.
  Qed.
  Theorem amplitude_kept : forall T h, 0 < M -> 0 < N -> (forall i j, i < M -> j < N -> fits_spin M N dim d i j (T i j)) -> rows_within M N dim cut ->
    Forall (proper M N dim d) h -> Forall keeps_tensors h -> (forall i j, i < M -> j < N -> spin_after h i j <> (-1)%Z) ->
    exists c, run E J M N h (lattice_of M N T, fresh M N) = Ok (lattice_of M N T, c) /\
      unless_reported L gesvd (fun v => v = psi M N dim T (spin_after h)) (amp c).
  Proof.
    intros T h HM HP F Hr P Kt S0. destruct (configured_by T h F P (keeps_careful h Kt) S0) as [c [R1 R2]]. exists c.
    assert (TT : forall i j, tensor_after T h i j = T i j) by (intros; now apply keeps_tensor_after). split.
    - rewrite R1. f_equal. f_equal. apply table_ext. intros. apply TT.
    - apply amplitude_configured; auto. destruct R2 as [T0 [h0 [o [A1 [A2 [A3 [A4 A5]]]]]]]. exists T0, h0, o. split; [exact A1|]. split; [exact A2|]. split; [exact A3|]. split; [exact A4|].
      intros i j Hi Hj. rewrite <- TT. now apply A5.
  Qed.
  Theorem initialized_amplitude : forall T sp, 0 < M -> 0 < N -> (forall i j, i < M -> j < N -> fits_spin M N dim d i j (T i j)) -> rows_within M N dim cut ->
    (forall i j, i < M -> j < N -> (0 <= sp i j < Z.of_nat d)%Z) ->
    exists c, initialize_spin E J M N (lattice_of M N T) (fun i j => Ok (sp i j)) (fresh M N) = Ok c /\ unless_reported L gesvd (fun v => v = psi M N dim T sp) (amp c).
  Proof. intros T sp HM HP F Hr Hs. destruct (initialized T sp F Hs) as [c [C1 C2]]. exists c. split; [exact C1|]. now apply amplitude_configured. Qed.

  Variables (real : bool) (of_nat : nat -> R).
  Theorem gradient_configured : forall T i j (samples : list (@spins R * R * R)) (conf : list (nat -> nat -> Z)), i < M -> j < N -> rows_within M N dim cut -> fits_spin M N dim d i j (T i j) ->
    Forall2 (fun smp s => configured E J M N dim d T (fst (fst smp)) s) samples conf ->
    let n := of_nat (length samples) in
    let O p u v l r := fun ss : (@spins R * R * R) * (nat -> nat -> Z) => log_derivative real M N dim T (snd ss) (snd (fst (fst ss))) i j p u v l r in
    unless_reported L gesvd (fun g => fits_spin M N dim d i j g /\ forall p u v l r, p < d -> u < size_up dim i j -> v < size_down M dim i j -> l < size_left dim i j -> r < size_right N dim i j ->
        spin_elements g p u v l r =
        rsub (rmul (of_nat 2) (rdiv (rsum (map (fun ss => rmul (O p u v l r ss) (snd (fst ss))) (combine samples conf))) n))
             (rmul (rmul (of_nat 2) (rdiv (rsum (map snd samples)) n)) (rdiv (rsum (map (O p u v l r) (combine samples conf))) n)))
      (gradient_at E J Iq Is L gesvd vzero vjunk greater of_real M N cut real of_nat d (lattice_of M N T) samples i j).
  Proof.
    intros T i j samples conf Hi Hj Hr F HF n O.
    assert (HF' : Forall2 (reached M N d dim T) samples conf).
    { clear - HF EA HJ. induction HF as [|smp s samples conf H HF IH]; constructor; [|exact IH]. exact (configured_reached T (fst (fst smp)) s H). }
    pose proof (gradient_ok EA MA MD E J Iq Is L gesvd vzero vjunk greater of_real HJ HN HL HS HO M N cut d dim Hcut real of_nat T i j samples conf Hi Hj Hr F HF') as X.
    cbn zeta in X. change (table M N T) with (lattice_of M N T) in X.
    destruct (gradient_at E J Iq Is L gesvd vzero vjunk greater of_real M N cut real of_nat d (lattice_of M N T) samples i j) as [[g [|]]|[]| |]; cbn in X |- *; try exact X.
    destruct X as [X1 X2]. split; [exact X1|]. intros p u v l r Hp Hu Hv Hl Hr'. apply X2; [exact Hp|]. repeat split; assumption.
  Qed.
End History.
