(** Runs of the Heisenberg model: exact evolution keeps the number of spins that are down; the terms of the setters go through the simple update. *)
From Coq Require Import List Bool Arith ZArith Lia Ring.
From Verif Require Import Base.Outcome Base.SMap Model.Symmetry Model.Edge Model.Core Model.EdgeOperator Model.Elementwise Model.Contract Model.Qr Model.Svd Model.SimpleTensor Model.Exact Model.NetworkNew Model.SpinOperators
  Spec.Blocks Spec.Relabel Spec.Contract Spec.Plain Spec.Lapack Spec.Grid Spec.Svd Spec.SquareLattice Spec.ExactState Spec.ExactOperator Spec.WeightedLattice Spec.LocalUpdate Spec.LatticeLife Spec.SpinModel
  Proof.SymmetryFacts Proof.LoopFacts Proof.SumFacts Proof.CoreFacts Proof.PlainFacts Proof.LineMath Proof.GridSum Proof.ExactApply Proof.ExactObserve Proof.SpinOpFacts Proof.Heisenberg Proof.NewFacts Proof.LatticeLife.
From Verif Require Model.Schedule Model.Mpi Model.SimpleUpdate Spec.Bonds Spec.Runs.
Import ListNotations.

Section Spin.
  Context {R C : Type} {RR : Scalar R} {RC : Scalar C}.
  Hypotheses (EA : exact_arithmetic R) (MA : associative_product R) (MD : distributive_product R) (EAC : exact_arithmetic C).
  Add Ring scalars92 : (semi_ring EA MA MD).
  Variables (half mhalf : R) (imaginary : R -> C) (part : C -> R).
  Hypothesis SN : spin_numbers half mhalf imaginary part.
  Variables (E : @env R) (EC : @env C) (J : internal) (junk : R) (junkC : C).
  Hypothesis HJ : NoDup [i_contract_0 J; i_contract_1 J; i_contract_2 J].
  Notation SS := (spin_ss half mhalf imaginary part E EC J junk junkC).
  Theorem ss_exchanges : exists t, SS = Ok t /\ fits_operator 2 2 t /\ forall p q f s, p <> q -> extensional f -> s (fst p) (snd p) < 2 -> s (fst q) (snd q) < 2 ->
    applied 2 [p; q] t f s = radd (rmul half (f (swapped p q s))) (rmul (rmul half mhalf) (f s)) /\ applied 2 [p; q] t f s = applied 2 [q; p] t f s.
  Proof.
    destruct (spin_ss_ok EA MA MD EAC half mhalf imaginary part SN E EC J junk junkC HJ) as [t [T1 [T2 T3]]]. exists t. split; [exact T1|]. split; [exact T2|]. intros p q f s Hpq Hf Hp Hq. split.
    - now apply (exchange EA MA MD half (rmul half mhalf) t T3).
    - now apply (exchange_order EA MA MD half (rmul half mhalf) t T3).
  Qed.
  Context {V : Type} (vzero : V) (greater : V -> V -> bool) (of_real : V -> R) (abs : R -> V) (vsub vmul vdiv : V -> V -> V) (vabs : V -> V) (of_nat : nat -> V).
  Hypotheses (HM : modulus vzero greater of_real abs) (SB : subtracting R) (DV : dividing R).
  Theorem sector_kept : forall t M N terms, SS = Ok t -> pair_terms M N t terms ->
    forall (k down : nat) (approximate_energy : V) (v : tensor unit R), exact_state M N 2 v -> in_sector M N down (component M N v) ->
    let a := vmul (vmul (vabs approximate_energy) (of_nat M)) (of_nat N) in
    not_zero M N 2 (shifted_times 2 (of_real a) terms k (component M N v)) ->
    exists v' e, exact_update E J vzero greater of_real abs vsub vmul vdiv vabs of_nat M N k approximate_energy terms v = Ok (v', e) /\ exact_state M N 2 v' /\ in_sector M N down (component M N v').
  Proof.
    intros t M N terms HT HP k down e0 v Hv Hs a Hn.
    destruct (spin_ss_ok EA MA MD EAC half mhalf imaginary part SN E EC J junk junkC HJ) as [t' [T1 [T2 T3]]]. rewrite HT in T1. injection T1 as <-.
    assert (PT : proper_terms M N 2 terms).
    { unfold pair_terms in HP. unfold proper_terms. rewrite Forall_forall in HP |- *. intros [ps A] Hin. destruct (HP _ Hin) as [H1 [p [q [H2 H3]]]]. cbn [fst snd] in *. subst ps A. now split. }
    destruct (update_ok EA E J HJ vzero greater of_real abs vsub vmul vdiv vabs of_nat HM M N 2 terms PT MA MD SB DV k e0 v Hv) as [v' [e [U1 [U2 U3]]]].
    exists v', e. split; [exact U1|]. split; [exact U2|]. specialize (U3 Hn). destruct U3 as [c Hc]. cbv beta delta [top] in Hc. destruct Hn as [s0 [W0 N0]].
    assert (Hext : extensional (component M N v)). { intros s s' H. unfold component. f_equal. apply map_ext. intros [i j]. cbn [fst snd]. now rewrite H. }
    destruct (sector_shifted EA MA MD half (rmul half mhalf) t T3 M N down SB (of_real a) terms k (component M N v) HP Hext Hs) as [_ Hsec].
    assert (C0 : c <> rzero). { intros ->. apply N0. unfold a. rewrite (Hc s0 W0). ring. }
    intros s Hw Hd. specialize (Hsec s Hw Hd). unfold a in Hsec. rewrite (Hc s Hw) in Hsec.
    transitivity (rmul (rmul (rdiv rone c) c) (component M N v' s)).
    - rewrite (DV rone c C0). symmetry. ring.
    - rewrite (MA (rdiv rone c) c), Hsec. ring.
  Qed.
End Spin.

Section Terms.
  Lemma mset_in : forall {H : Type} (m : list (Schedule.positions * H)) k v p h, In (p, h) (mset k v m) -> p = k /\ h = v \/ In (p, h) m.
  Proof.
    intros H m k v p h. induction m as [|[k0 v0] m IH]; cbn [mset]; [intros [Q|[]]; injection Q as <- <-; auto|].
    destruct (cmp k k0); cbn [In]; intros Hin; destruct Hin as [Q|Hin]; try (injection Q as <- <-); auto. apply IH in Hin. tauto.
  Qed.
  Lemma keys_set_in : forall {H A : Type} (key : A -> Schedule.positions) (h0 : H) ks l p h, In (p, h) (fold_left (fun acc x => mset (key x) h0 acc) ks l) ->
    (exists x, In x ks /\ p = key x) /\ h = h0 \/ In (p, h) l.
  Proof.
    intros H A key h0 ks. induction ks as [|x ks IH]; intros l p h Hin; [now right|]. cbn [fold_left] in Hin. destruct (IH _ _ _ Hin) as [[[y [Hy ->]] ->]|Hl].
    - left. split; [exists y; split; [now right|reflexivity]|reflexivity].
    - apply mset_in in Hl as [[-> ->]|Hl]; [|now right]. left. split; [exists x; split; [now left|reflexivity]|reflexivity].
  Qed.
  Lemma keys_of_setters : forall {H : Type} M N (hs hv hh : H) p h,
    In (p, h) (set_all_horizontal_bond M N hh (set_all_vertical_bond M N hv (set_all_site M N hs []))) ->
    site_term M N p /\ h = hs \/ below_term M N p /\ h = hv \/ right_term M N p /\ h = hh.
  Proof.
    intros H M N hs hv hh p h. rewrite horizontal_keys, vertical_keys. unfold set_all_site. intros Hin. apply keys_set_in in Hin as [[[[i j] [Hx ->]] ->]|Hin].
    - right. right. split; [|reflexivity]. exists i, j. apply in_loop in Hx. split; [reflexivity|]. unfold Bonds.inside in *. cbn [fst snd] in *. lia.
    - apply keys_set_in in Hin as [[[[i j] [Hx ->]] ->]|Hin].
      + right. left. split; [|reflexivity]. exists i, j. apply in_loop in Hx. split; [reflexivity|]. unfold Bonds.inside in *. cbn [fst snd] in *. lia.
      + apply (keys_set_in (fun ij => [ij])) in Hin as [[[[i j] [Hx ->]] ->]|[]]. left. split; [|reflexivity]. exists (i, j). split; [reflexivity|]. now apply in_loop.
  Qed.
  Lemma setters_good : forall {H : Type} M N (hs hv hh : H), let l := set_all_horizontal_bond M N hh (set_all_vertical_bond M N hv (set_all_site M N hs [])) in
    NoDup (map fst l) /\ Bonds.oriented (map fst l) /\ forall p, In p (map fst l) -> Bonds.local_term p /\ forall a, In a p -> Bonds.inside M N a.
  Proof.
    intros H M N hs hv hh l. assert (K : forall p, In p (map fst l) -> site_term M N p \/ below_term M N p \/ right_term M N p).
    { intros p Hp. apply in_map_iff in Hp as [[q h] [<- Hin]]. apply keys_of_setters in Hin. tauto. }
    split; [|split].
    - destruct (set_sorted (H := H) M N hs [] msorted_nil) as [S1 _]. destruct (set_sorted M N hv _ S1) as [_ [S2 _]]. destruct (set_sorted M N hh _ S2) as [_ [_ S3]]. now apply msorted_nodup.
    - intros a b Ha Hb. apply K in Ha, Hb.
      assert (P : forall x y : Z * Z, site_term M N [x; y] \/ below_term M N [x; y] \/ right_term M N [x; y] -> (fst x + snd x < fst y + snd y)%Z).
      { intros x y [[z [Q _]]|[[i [j [Q _]]]|[i [j [Q _]]]]]; [discriminate| |]; injection Q as -> ->; cbn [fst snd]; lia. }
      apply P in Ha. apply P in Hb. lia.
    - intros p Hp. apply K in Hp as [[a [-> Ha]]|[[i [j [-> [Ha Hb]]]]|[i [j [-> [Ha Hb]]]]]].
      + split; [left; now exists a|]. intros b [<-|[]]. exact Ha.
      + split; [right; exists (i, j), (i + 1, j)%Z; split; [reflexivity|unfold Bonds.adjacent; cbn [fst snd]; lia]|]. intros c [<-|[<-|[]]]; assumption.
      + split; [right; exists (i, j), (i, j + 1)%Z; split; [reflexivity|unfold Bonds.adjacent; cbn [fst snd]; lia]|]. intros c [<-|[<-|[]]]; assumption.
  Qed.
End Terms.

Section Run.
  Context {R V : Type} {RR : Scalar R}.
  Hypotheses (EA : exact_arithmetic R) (MA : associative_product R) (MD : distributive_product R) (DV : dividing R).
  Variables (E : @env R) (J : internal) (Iq : qr_names) (Is : svd_names).
  Hypotheses (HJ : NoDup [i_contract_0 J; i_contract_1 J; i_contract_2 J]) (HI : own_names Iq Is).
  Variables (L : qr_lapack R) (gesvd : nat -> nat -> list R -> bool * (list V * list R * list R)) (vzero vjunk : V) (greater : V -> V -> bool)
    (of_real : V -> R) (abs : R -> V) (vabs : V -> V) (vdiv : V -> V -> V).
  Hypotheses (HL : qr_sound L) (HG : svd_sound of_real vzero greater gesvd) (HM : modulus vzero greater of_real abs) (HD : real_division vzero greater of_real vabs vdiv).
  Theorem new_then_update : forall (St : Type) (junk : R) (g : St -> R * St) (M N d D cut : nat) (st st' : St) (x : SimpleUpdate.network (res (tensor unit R)) (res (list (unit * list V))))
    (hs hv hh : nat) (exponential : nat -> nat -> res (tensor unit R)) (blank : res (list (unit * list V))) (steps size : nat),
    new_simple vzero greater of_real abs junk g M N D d st = Ok (x, st') -> 0 < cut -> 0 < size -> hs <> hv -> hs <> hh ->
    (forall k h, k = 1 /\ h = hs \/ k = 2 /\ (h = hv \/ h = hh) -> exists U, exponential k h = Ok U /\ fits_operator k d U) ->
    exists x', Runs.always_reaches
      (Mpi.launch size (fun r => SimpleUpdate.simple_update (multiple_t E of_real) (site_update_t E J) (bond_update_t E J Iq Is L gesvd vzero vjunk greater vabs vdiv cut)
         (normalized_t vzero greater of_real abs) blank exponential steps size r
         (set_all_horizontal_bond (Z.of_nat M) (Z.of_nat N) hh (set_all_vertical_bond (Z.of_nat M) (Z.of_nat N) hv (set_all_site (Z.of_nat M) (Z.of_nat N) hs []))) x))
      (Runs.finished size (fun _ => Mpi.Stop (Ok x'))) /\
    (~ qr_never_fails L \/ lattice_up_to M N d (Nat.max D cut) x').
  Proof.
    intros St junk g M N d D cut st st' x hs hv hh ex blank steps size Hx Hc Hz N1 N2 HU.
    destruct (new_simple_ok vzero greater of_real abs junk g M N D d st) as [T [x0 [st0 [Q1 [Q2 Q3]]]]]. rewrite Hx in Q1. injection Q1 as <- <-.
    set (l := set_all_horizontal_bond _ _ hh _). destruct (setters_good (Z.of_nat M) (Z.of_nat N) hs hv hh) as [G1 [G2 G3]].
    assert (K := keys_of_setters (Z.of_nat M) (Z.of_nat N) hs hv hh). fold l in G1, G2, G3, K.
    assert (LK : forall p h, In (p, h) l -> length p = 1 /\ h = hs \/ length p = 2 /\ (h = hv \/ h = hh)).
    { intros p h Hin. destruct (K p h Hin) as [[[a [-> _]] ->]|[[[i [j [-> _]]] ->]|[[i [j [-> _]]] ->]]]; cbn [length]; tauto. }
    destruct (update_good EA MA MD DV E J Iq Is HJ HI L gesvd vzero vjunk greater of_real abs vabs vdiv HL HG HM HD M N d cut D l ex Hc G1 G2 G3) with (blank := blank) (steps := steps) (size := size) (x := x) as [x' [X1 X2]].
    - intros p q h Hp Hq. apply LK in Hp, Hq. destruct Hp as [[-> ->]|[-> Hp]], Hq as [[-> Q]|[-> Hq]]; try reflexivity; exfalso; [destruct Hq|destruct Hp]; congruence.
    - intros p h Hp. apply HU. now apply LK.
    - exact Hz.
    - exists (fun _ => D), T. split; [exact Q2|]. intros; lia.
    - rewrite Q3. apply msorted_nil.
    - exists x'. split; [exact X1|]. destruct X2 as [X2|[X2 _]]; [now left|now right].
  Qed.
End Run.
