(** Expectation values and imaginary time evolution of exact lattices. *)
From Coq Require Import String Ascii List Bool Arith ZArith Lia Permutation.
From Verif Require Import Base.Outcome Base.SMap Model.Symmetry Model.Edge Model.Core Model.EdgeOperator Model.Elementwise Model.Contract Model.Misc Model.ShrinkExpand Model.Qr Model.Svd Model.Auxiliaries Model.Spins Model.SimpleTensor Model.Exact
  Spec.Blocks Spec.Relabel Spec.Contract Spec.Values Spec.Plain Spec.Lapack Spec.Grid Spec.SquareLattice Spec.SpinLattice Spec.Factor Spec.Truncate Spec.Spectrum Spec.Svd Spec.ExactState Spec.ExactOperator Proof.LoopFacts Proof.SumFacts Proof.CoreFacts Proof.ElemFacts Proof.LegFacts Proof.TransposeNames Proof.RenameFacts Proof.RegroupFacts Proof.ContractNames Proof.ContractPlain Proof.PlainFacts Proof.PlainTools Proof.PlainElem Proof.SumBonds Proof.GridSum Proof.LatticeAmplitude Proof.SpinFacts Proof.SpinAmplitude Proof.ExactVector Proof.ExactValue Proof.ExactMain Proof.WeightedMain Proof.ExactApply.
From Verif Require Proof.TransposeTensor Proof.StripTensor Proof.WholeFacts Proof.SpinGradient.
Import ListNotations.

Section Stored.
  Context {R V : Type} {RR : Scalar R}.
  Notation tens := (tensor unit R).
  Implicit Types t : tens.

  (** the stored elements are the elements by name *)
  Lemma value_stored : forall t K a, has t K -> in_slots K a -> In (value t a) (stored t).
  Proof.
    intros t K a H Ha. destruct (plain_block Ns t (h_wf _ _ H) (h_block _ _ H)) as [key [data Eb]].
    destruct (plain_data Ns t (h_wf _ _ H) (h_block _ _ H) key data Eb) as [_ Hd].
    destruct (Hd (map (fun n => (n, (tt, index a n))) (t_names t)) (map (index a) (t_names t))) as [v [V1 [V2 _]]].
    - unfold assigns. rewrite !map_map. apply map_ext_in. intros n Hn. now apply (find_pos (fun n => (tt, index a n))).
    - assert (G : forall l, incl l (t_names t) -> Forall2 lt (map (index a) l) (map (dim_of t) l)).
      { induction l as [|n l IH]; intro Hl; cbn [map]; constructor.
        - assert (Hn : In n (t_names t)) by (apply Hl; now left). assert (Q := has_size t K n H Hn). destruct (Ha n) as [Hi|Hi]; [|congruence]. rewrite Q in Hi. exact Hi.
        - apply IH. intros x Hx. apply Hl. now right. }
      apply G. now intro.
    - unfold value, element. rewrite V2. unfold stored. rewrite Eb. cbn [map snd concat]. rewrite app_nil_r. now apply nth_error_In in V1.
  Qed.
  Lemma stored_value : forall t K x, has t K -> In x (stored t) -> exists a, in_slots K a /\ value t a = x.
  Proof.
    intros t K x H Hx. destruct (plain_block Ns t (h_wf _ _ H) (h_block _ _ H)) as [key [data Eb]].
    destruct (plain_data Ns t (h_wf _ _ H) (h_block _ _ H) key data Eb) as [HL Hd].
    unfold stored in Hx. rewrite Eb in Hx. cbn [map snd concat] in Hx. rewrite app_nil_r in Hx. apply In_nth_error in Hx as [off Hx].
    assert (Ho : off < length data) by (apply nth_error_Some; congruence). rewrite HL in Ho.
    destruct (row_major_surj _ off Ho) as [is [I1 I2]].
    assert (Ln : length is = length (t_names t)) by (apply Forall2_len in I1; now rewrite map_length in I1).
    assert (Nd : NoDup (t_names t)) by apply (wf_nodup _ (h_wf _ _ H)).
    set (a := combine (t_names t) is).
    assert (At : forall k n i, nth_error (t_names t) k = Some n -> nth_error is k = Some i -> index a n = i).
    { intros k n i H1 H2. unfold index, a. now rewrite (find_combine _ _ _ k n i Nd H1 H2). }
    assert (Map : map (index a) (t_names t) = is).
    { apply TransposeTensor.nth_error_ext. intro k. destruct (nth_error is k) as [i|] eqn:Q.
      - destruct (nth_error (t_names t) k) as [n|] eqn:Q'.
        + rewrite nth_error_map, Q'. cbn. f_equal. now apply (At k).
        + apply nth_error_None in Q'. assert (k < length is) by (apply nth_error_Some; congruence). lia.
      - apply nth_error_None in Q. apply nth_error_None. rewrite map_length. lia. }
    exists a. split.
    - intro n. destruct (slot K n) eqn:Sn; [|now right]. left. rewrite <- Sn. assert (Hn : In n (t_names t)) by (apply (has_in t K n H); congruence).
      apply In_nth_error in Hn as [k Hk]. assert (Hk' : k < length is) by (rewrite Ln; apply nth_error_Some; congruence).
      destruct (nth_error is k) as [i|] eqn:Q; [|apply nth_error_None in Q; lia]. rewrite (At k n i Hk Q).
      assert (G : forall (l m : list nat), Forall2 lt l m -> forall k i d, nth_error l k = Some i -> nth_error m k = Some d -> i < d).
      { induction 1; intros [|k'] i' d'; cbn; intros G1 G2; try discriminate; [congruence|eauto]. }
      assert (Hn : In n (t_names t)) by (now apply nth_error_In in Hk). rewrite (has_size t K n H Hn).
      apply (G _ _ I1 k); [exact Q|]. rewrite nth_error_map, Hk. reflexivity.
    - destruct (Hd (map (fun n => (n, (tt, index a n))) (t_names t)) (map (index a) (t_names t))) as [v [V1 [V2 _]]].
      + unfold assigns. rewrite !map_map. apply map_ext_in. intros n Hn. now apply (find_pos (fun n => (tt, index a n))).
      + rewrite Map. exact I1.
      + unfold value, element. rewrite V2. rewrite Map, I2, Hx in V1. congruence.
  Qed.
End Stored.

Section Observe.
  Context {R V : Type} {RR : Scalar R}.
  Notation tens := (tensor unit R).
  Implicit Types t v w : tens.
  Hypotheses (EA : exact_arithmetic R).
  Variables (E : @env R) (J : internal).
  Hypothesis HJ : NoDup [i_contract_0 J; i_contract_1 J; i_contract_2 J].
  Variables (M N d : nat).
  Notation K := (state_slots M N d).
  Notation comp := (component M N).

  Lemma nodup_sites : NoDup (sites M N).
  Proof. apply NoDup_sites. Qed.
  Lemma combine_at : forall l (q : nat * nat -> nat) p, In p l -> mfind (sname p) (combine (map sname l) (map q l)) = Some (q p).
  Proof.
    induction l as [|x l IH]; intros q p Hp; [destruct Hp|]. cbn [map combine mfind]. destruct (eqb (sname p) (sname x)) eqn:Q.
    - apply eqb_eq in Q. apply sname_inj in Q. now subst.
    - apply IH. destruct Hp as [->|Hp]; [|exact Hp]. rewrite eqb_refl in Q. discriminate.
  Qed.
  (** two vectors contracted *)
  Lemma paired : forall v w, exact_state M N d v -> exact_state M N d w ->
    exists r, contract_all_edge E J v w = Ok r /\ to_scalar r = Ok (bilinear M N d (comp v) (comp w)).
  Proof.
    intros v w Hv Hw. apply exact_state_has in Hv. apply exact_state_has in Hw. set (vs := map sname (sites M N)).
    assert (Nv : NoDup vs) by (apply FinFun.Injective_map_NoDup; [intros p q; apply sname_inj|apply nodup_sites]).
    assert (Sv : forall n, In n vs -> slot K n = Some d). { intros n Hn. apply in_map_iff in Hn as [p [<- Hp]]. unfold slot. now rewrite (find_state M N d p Hp). }
    destruct (all_edges_has EA E J HJ v w K K vs Hv Hw Nv) as [r [R1 [R2 R3]]].
    - intros n Hn _. apply (state_keys M N d) in Hn as [p [Hp ->]]. now apply in_map.
    - intros n Hn. split; [reflexivity|]. now rewrite (Sv n Hn).
    - exists r. split; [exact R1|]. assert (Nil : without vs K ++ without vs K = []).
      { assert (W : without vs K = []); [|now rewrite W]. unfold without, state_slots. assert (G : forall l, incl l (sites M N) -> filter (fun p => negb (member (fst p) vs)) (map (fun p => (sname p, Some d)) l) = []).
        { induction l as [|p l IH]; intro Hl; [reflexivity|]. cbn [map filter fst]. replace (member (sname p) vs) with true; [apply IH; intros x Hx; apply Hl; now right|]. symmetry. apply member_In. apply in_map. apply Hl. now left. }
        apply G. now intro. }
      rewrite Nil in R2, R3. rewrite (StripTensor.scalar_ok r [] [] R2) by reflexivity. f_equal. rewrite R3 by (intro n; now right). unfold bilinear, over_spins.
      replace (map (fun n => size (slot K n)) vs) with (map (fun _ : nat * nat => d) (sites M N)).
      2:{ unfold vs. rewrite map_map. apply map_ext_in. intros p Hp. rewrite Sv; [reflexivity|now apply in_map]. }
      rewrite (Over_map_seq pair_eqb pair_spec (fun _ => d) (sites M N) _ (fun _ => 0) nodup_sites).
      apply (Over_ext pair_eqb pair_spec). intros q _. f_equal; apply (component_value M N d); auto; intros p Hp; unfold index; rewrite app_nil_r; unfold vs; rewrite combine_at by exact Hp; now destruct p.
  Qed.

  (** ** observing *)
  Variables (vzero : V) (vadd vdiv : V -> V -> V) (of_nat : nat -> V) (to_real : R -> V).
  Notation denominator := (denominator E J to_real).
  Notation observe := (observe E J vdiv to_real).
  Notation observe_energy := (observe_energy E J vzero vadd vdiv of_nat to_real).

  Theorem denominator_ok : forall v, exact_state M N d v -> denominator v = Ok (to_real (bilinear M N d (comp v) (comp v))).
  Proof. intros v Hv. unfold denominator. destruct (paired v v Hv Hv) as [r [-> R2]]. cbn [bind]. now rewrite R2. Qed.
  Lemma bilinear_ext : forall f f' g g' : (nat -> nat -> nat) -> R, (forall s, spins_within M N d s -> f s = f' s) -> (forall s, spins_within M N d s -> g s = g' s) -> bilinear M N d f g = bilinear M N d f' g'.
  Proof.
    intros f f' g g' Hf Hg. unfold bilinear, over_spins. apply (Over_ext_range pair_eqb pair_spec); [apply nodup_sites|]. intros q _ Hq.
    assert (Hs : spins_within M N d (fun i j => q (i, j))) by (intros i j Hi Hj; apply Hq; now apply in_sites_iff). now rewrite Hf, Hg.
  Qed.
  Theorem observe_ok : forall v ps A calc, exact_state M N d v -> on_lattice M N ps -> fits_operator (length ps) d A ->
    observe v ps A calc = Ok (if calc then vdiv (to_real (bilinear M N d (applied d ps A (comp v)) (comp v))) (to_real (bilinear M N d (comp v) (comp v)))
                              else to_real (bilinear M N d (applied d ps A (comp v)) (comp v))).
  Proof.
    intros v ps A calc Hv Hp HA. unfold observe. destruct (apply_term_ok EA E J HJ M N d ps A Hp HA v Hv) as [w [-> [W2 W3]]]. cbn [bind].
    destruct (paired w v W2 Hv) as [r [-> R2]]. cbn [bind]. rewrite R2. cbn [bind]. rewrite (denominator_ok v Hv). cbn [bind].
    rewrite (bilinear_ext (comp w) (applied d ps A (comp v)) (comp v) (comp v) W3) by reflexivity. now destruct calc.
  Qed.
  (** ** all terms *)
  Hypotheses (MD : distributive_product R) (Radd : forall x y, to_real (radd x y) = vadd (to_real x) (to_real y)) (Rzero : to_real rzero = vzero).
  Lemma Sum_add : forall n (f g : nat -> R), Sum n (fun i => radd (f i) (g i)) = radd (Sum n f) (Sum n g).
  Proof. intros n f g. unfold Sum. apply (rsum_add EA). Qed.
  Lemma Over_add : forall (B : Type) (same : B -> B -> bool) (dm : B -> nat) bs (f g : (B -> nat) -> R) p, Over same dm bs (fun q => radd (f q) (g q)) p = radd (Over same dm bs f p) (Over same dm bs g p).
  Proof.
    intros B same dm. induction bs as [|b bs IH]; intros f g p; [reflexivity|]. rewrite !(Over_cons same). rewrite <- Sum_add. apply Sum_ext. intros i _. apply IH.
  Qed.
  Lemma Over_none : forall (B : Type) (same : B -> B -> bool) (dm : B -> nat) bs p, Over same dm bs (fun _ => rzero : R) p = rzero.
  Proof.
    intros B same dm. induction bs as [|b bs IH]; intros p; [reflexivity|]. rewrite (Over_cons same). transitivity (Sum (dm b) (fun _ => rzero : R)); [apply Sum_ext; intros i _; apply IH|apply (Sum_zero EA)].
  Qed.
  Lemma bilinear_add : forall f g h : (nat -> nat -> nat) -> R, bilinear M N d (fun s => radd (f s) (g s)) h = radd (bilinear M N d f h) (bilinear M N d g h).
  Proof. intros f g h. unfold bilinear, over_spins. rewrite <- Over_add. apply (Over_ext pair_eqb pair_spec). intros q _. apply (mul_distr_r EA MD). Qed.
  Theorem energy_ok : forall v terms, exact_state M N d v -> proper_terms M N d terms ->
    observe_energy M N v terms = Ok (vdiv (vdiv (to_real (bilinear M N d (energy_of d terms (comp v)) (comp v))) (to_real (bilinear M N d (comp v) (comp v)))) (of_nat (M * N))).
  Proof.
    intros v terms Hv HT. unfold observe_energy.
    assert (G : forall acc, foldM (fun e po => bind (observe v (fst po) (snd po) false) (fun x => Ok (vadd e x))) terms (to_real acc) = Ok (to_real (radd acc (bilinear M N d (energy_of d terms (comp v)) (comp v))))).
    { induction HT as [|[ps A] terms [H1 H2] HT IH]; intro acc.
      - cbn [foldM]. do 2 f_equal. unfold energy_of. cbn [map rsum fold_right]. transitivity (radd acc rzero); [now rewrite (ea_add_comm _ EA), (ea_add_0 _ EA)|]. f_equal. symmetry. unfold bilinear, over_spins.
        transitivity (Over pair_eqb (fun _ : nat * nat => d) (sites M N) (fun _ => rzero : R) (fun _ => 0)); [|apply Over_none]. apply (Over_ext pair_eqb pair_spec). intros q _. apply (ea_mul_0 _ EA).
      - cbn [foldM fst snd] in *. rewrite (observe_ok v ps A false Hv H1 H2). cbn [bind]. rewrite <- Radd, IH. do 2 f_equal. rewrite <- (ea_add_assoc _ EA). f_equal. rewrite <- bilinear_add. reflexivity. }
    rewrite <- Rzero, G. cbn [bind]. rewrite (denominator_ok v Hv). cbn [bind]. now rewrite (ea_add_0 _ EA).
  Qed.
  (** real scalars *)
  Section Real.
    Hypothesis Real : forall x : R, rconj x = x.
    Lemma bilinear_overlap : forall f g, bilinear M N d f g = overlap M N d g f.
    Proof. intros f g. unfold bilinear, overlap, over_spins. apply (Over_ext pair_eqb pair_spec). intros q _. rewrite Real. apply (ea_mul_comm _ EA). Qed.
    Theorem observe_real : forall v ps A, exact_state M N d v -> on_lattice M N ps -> fits_operator (length ps) d A ->
      denominator v = Ok (to_real (overlap M N d (comp v) (comp v))) /\
      observe v ps A true = Ok (vdiv (to_real (overlap M N d (comp v) (applied d ps A (comp v)))) (to_real (overlap M N d (comp v) (comp v)))).
    Proof. intros v ps A Hv Hp HA. rewrite denominator_ok, observe_ok by assumption. now rewrite !bilinear_overlap. Qed.
    Theorem energy_real : forall v terms, exact_state M N d v -> proper_terms M N d terms ->
      observe_energy M N v terms = Ok (vdiv (vdiv (to_real (overlap M N d (comp v) (energy_of d terms (comp v)))) (to_real (overlap M N d (comp v) (comp v)))) (of_nat (M * N))).
    Proof. intros v terms Hv HT. rewrite energy_ok by assumption. now rewrite !bilinear_overlap. Qed.
  End Real.
End Observe.

Section Update.
  Context {R V : Type} {RR : Scalar R}.
  Notation tens := (tensor unit R).
  Implicit Types t v w : tens.
  Hypotheses (EA : exact_arithmetic R).
  Variables (E : @env R) (J : internal).
  Hypothesis HJ : NoDup [i_contract_0 J; i_contract_1 J; i_contract_2 J].
  Variables (vzero : V) (greater : V -> V -> bool) (of_real : V -> R) (abs : R -> V) (vsub vmul vdiv : V -> V -> V) (vabs : V -> V) (of_nat : nat -> V).
  Hypothesis HV : modulus vzero greater of_real abs.
  Variables (M N d : nat) (terms : list (list (nat * nat) * tens)).
  Hypothesis HT : proper_terms M N d terms.
  Notation K := (state_slots M N d).
  Notation comp := (component M N).
  Notation within s := (spins_within M N d s).
  Notation H := (energy_of d terms).
  Notation norm_t := (norm_t vzero greater abs).

  Lemma comp_in : forall v s, comp v s = value v (pt M N s).
  Proof. reflexivity. Qed.
  Lemma terms_ok : forall v, exact_state M N d v -> exists w, hamiltonian_times E J v terms = Ok w /\ has w K /\ forall s, within s -> comp w s = H (comp v) s.
  Proof.
    intros v Hv. unfold hamiltonian_times. destruct (SpinGradient.zero_has E v K) as [z [Z1 [Z2 Z3]]]; [now apply exact_state_has|]. rewrite Z1. cbn [bind].
    assert (G : forall ts acc, proper_terms M N d ts -> has acc K -> exists w, foldM (fun w po => bind (apply_term E J v (fst po) (snd po)) (fun x => scalar_inplace E radd w x)) ts acc = Ok w /\ has w K /\
      forall s, within s -> comp w s = radd (comp acc s) (energy_of d ts (comp v) s)).
    { induction ts as [|[ps A] ts IH]; intros acc Hts Ha.
      - exists acc. split; [reflexivity|]. split; [exact Ha|]. intros s _. unfold energy_of. cbn. now rewrite (ea_add_comm _ EA), (ea_add_0 _ EA).
      - inversion Hts as [|? ? [P1 P2] Hts']; subst. cbn [fst snd] in *. cbn [foldM fst snd]. destruct (apply_term_ok EA E J HJ M N d ps A P1 P2 v Hv) as [x [-> [X2 X3]]]. cbn [bind].
        apply exact_state_has in X2. destruct (inplace_has E radd acc x K Ha X2) as [y [-> [Y2 Y3]]]. cbn [bind]. destruct (IH y Hts' Y2) as [w [W1 [W2 W3]]].
        exists w. split; [exact W1|]. split; [exact W2|]. intros s Hs. rewrite (W3 s Hs). unfold energy_of. cbn [map rsum fold_right fst snd]. rewrite comp_in, Y3 by (now apply pt_in). rewrite <- !comp_in, (X3 s Hs). symmetry. apply (ea_add_assoc _ EA). }
    destruct (G terms (zero_tensor z) HT Z2) as [w [W1 [W2 W3]]]. exists w. split; [exact W1|]. split; [exact W2|]. intros s Hs. rewrite (W3 s Hs), comp_in, Z3 by (now apply pt_in). apply (ea_add_0 _ EA).
  Qed.
  Definition spins_of (a : list (nat * nat)) : nat -> nat -> nat := fun i j => index a (site_name i j).
  Lemma slots_spins : forall a, in_slots K a -> within (spins_of a).
  Proof. intros a Ha i j Hi Hj. unfold spins_of. assert (S1 : slot K (site_name i j) = Some d) by (unfold slot; change (site_name i j) with (sname (i, j)); now rewrite (find_state M N d (i, j)) by (now apply in_sites_iff)). destruct (Ha (site_name i j)) as [Q|Q]; rewrite S1 in Q; [exact Q|discriminate]. Qed.
  Lemma value_spins : forall v a, has v K -> value v a = comp v (spins_of a).
  Proof. intros v a Hv. apply (component_value M N d v a _ Hv). reflexivity. Qed.
  (** the norm is the largest modulus *)
  Lemma norm_largest : forall v, has v K -> largest M N d vzero greater abs (comp v) (norm_t v).
  Proof.
    intros v Hv. pose proof (m_order _ _ _ _ HV) as O.
    destruct (@WholeFacts.norm_max_max unit R V vzero (fun x y => greater y x)) with (abs := abs) (t := v) as [_ [N2 N3]].
    - intros a b c H1 H2. destruct (greater c a) eqn:Q; [|reflexivity]. destruct (so_total _ O a b) as [->|[G|G]]; [congruence| |congruence]. rewrite (so_trans _ O c a b Q G) in H2. discriminate.
    - intros a b G. destruct (greater a b) eqn:Q; [|reflexivity]. pose proof (so_trans _ O _ _ _ G Q) as X. now rewrite (so_irrefl _ O) in X.
    - apply (so_irrefl _ O).
    - fold (norm_t v) in N2, N3. split.
      + intros s Hs. apply N2. apply (value_stored v K); [exact Hv|now apply pt_in].
      + destruct N3 as [N3|[x [X1 X2]]]; [now left|]. right. destruct (stored_value v K x Hv X1) as [a [A1 A2]]. exists (spins_of a). split; [now apply slots_spins|]. now rewrite <- (value_spins v a Hv), A2.
  Qed.
  Lemma largest_unique : forall f l l', greater vzero l = false -> greater vzero l' = false -> largest M N d vzero greater abs f l -> largest M N d vzero greater abs f l' -> l = l'.
  Proof.
    intros f l l' P P' [B A] [B' A']. pose proof (m_order _ _ _ _ HV) as O.
    assert (G1 : greater l l' = false) by (destruct A as [->|[s [Hs ->]]]; [exact P'|now apply B']).
    assert (G2 : greater l' l = false) by (destruct A' as [->|[s [Hs ->]]]; [exact P|now apply B]).
    destruct (so_total _ O l l') as [Q|[Q|Q]]; congruence.
  Qed.
  Notation step := (update_step E J vzero greater of_real abs vsub).
  Theorem step_ok : forall a v, exact_state M N d v -> exists v' n, step a terms v = Ok (v', vsub a n) /\ exact_state M N d v' /\ largest M N d vzero greater abs (shifted d (of_real a) terms (comp v)) n /\
    (of_real n <> rzero \/ forall s, within s -> shifted d (of_real a) terms (comp v) s = rzero) /\ greater vzero n = false /\
    forall s, within s -> comp v' s = rdiv (shifted d (of_real a) terms (comp v) s) (of_real n).
  Proof.
    intros a v Hv. unfold update_step. destruct (terms_ok v Hv) as [w [-> [W2 W3]]]. cbn [bind]. cbv zeta. apply exact_state_has in Hv as Hh.
    destruct (transform_has v K (fun x => rmul x (of_real a)) Hh) as [T1 T2]. destruct (inplace_has E rsub _ w K T1 W2) as [u [-> [U2 U3]]]. cbn [bind].
    assert (F : forall s, within s -> comp u s = shifted d (of_real a) terms (comp v) s).
    { intros s Hs. rewrite comp_in, U3, T2 by (now apply pt_in). rewrite <- !comp_in, (W3 s Hs). unfold shifted. f_equal. apply (ea_mul_comm _ EA). }
    destruct (transform_has u K (fun x => rdiv x (of_real (norm_t u))) U2) as [X1 X2].
    exists (transform (fun x => rdiv x (of_real (norm_t u))) u), (norm_t u). split; [reflexivity|]. split; [now apply exact_state_has|]. split; [|split; [|split]].
    - destruct (norm_largest u U2) as [L1 L2]. split; [intros s Hs; rewrite <- (F s Hs); now apply L1|]. destruct L2 as [L2|[s [Hs L2]]]; [now left|]. right. exists s. split; [exact Hs|]. now rewrite <- (F s Hs).
    - destruct (norm_or_zero vzero greater of_real abs HV u K U2) as [Z|Z]; [now left|]. right. intros s Hs. rewrite <- (F s Hs). apply Z. now apply pt_in.
    - destruct (norm_blocks vzero greater of_real abs HV (t_blocks u) vzero (or_introl eq_refl)) as [S _]. change (sane vzero greater (norm_t u)) in S. pose proof (m_order _ _ _ _ HV) as O.
      destruct S as [->|S]; [apply (so_irrefl _ O)|]. destruct (greater vzero (norm_t u)) eqn:Q; [|reflexivity]. pose proof (so_trans _ O _ _ _ S Q) as X. now rewrite (so_irrefl _ O) in X.
    - intros s Hs. rewrite comp_in, X2 by (now apply pt_in). now rewrite <- comp_in, (F s Hs).
  Qed.
  (** ** linearity *)
  Hypotheses (MA : associative_product R) (MD : distributive_product R) (SB : subtracting R) (DV : dividing R).
  Lemma sub_mul : forall c x y : R, rmul c (rsub x y) = rsub (rmul c x) (rmul c y).
  Proof. intros c x y. rewrite <- (proj1 (SB (rmul c (rsub x y)) (rmul c y))). f_equal. rewrite <- MD. f_equal. apply SB. Qed.
  Lemma put_within : forall s ps q, within s -> Forall2 lt q (repeat d (length ps)) -> within (spins_put s ps q).
  Proof.
    intros s ps q Hs Hq i j Hi Hj. unfold spins_put. destruct (find _ _) as [pq|] eqn:F; [|now apply Hs]. apply find_some in F as [F _]. destruct pq as [p x]. apply in_combine_r in F. cbn [snd].
    assert (G : forall l n, Forall2 lt l (repeat d n) -> forall x, In x l -> x < d); [|now apply (G _ _ Hq)]. clear. induction l as [|y l IH]; intros n Hl x Hx; [destruct Hx|]. destruct n; inversion Hl; subst. destruct Hx as [<-|Hx]; [assumption|]. now apply (IH n).
  Qed.
  Lemma applied_linear : forall ps A c f g, (forall s, within s -> f s = rmul c (g s)) -> forall s, within s -> applied d ps A f s = rmul c (applied d ps A g s).
  Proof.
    intros ps A c f g F s Hs. unfold applied. rewrite (Sums_mul_l EA MD). apply Sums_ext. intros q Hq. rewrite F by (now apply put_within). apply MA.
  Qed.
  Lemma shifted_linear : forall a c f g, (forall s, within s -> f s = rmul c (g s)) -> forall s, within s -> shifted d a terms f s = rmul c (shifted d a terms g s).
  Proof.
    intros a c f g F s Hs. unfold shifted. rewrite sub_mul. f_equal.
    - rewrite (F s Hs). apply (mul_swap EA MA).
    - unfold energy_of. rewrite (rsum_mul_l EA MD), map_map. f_equal. apply map_ext. intros [ps A]. cbn [fst snd]. now apply applied_linear.
  Qed.
  Notation update := (exact_update E J vzero greater of_real abs vsub vmul vdiv vabs of_nat M N).
  Definition top (approx : V) : V := vmul (vmul (vabs approx) (of_nat M)) (of_nat N).
  Definition follows (a : V) (f : (nat -> nat -> nat) -> R) (k : nat) (v : tens) : Prop :=
    exact_state M N d v /\ (proportional M N d (shifted_times d (of_real a) terms k f) v \/ forall s, within s -> shifted_times d (of_real a) terms k f s = rzero).
  Lemma follows_step : forall a f k v, follows a f k v -> exists v' n, step a terms v = Ok (v', vsub a n) /\ follows a f (S k) v'.
  Proof.
    intros a f k v [Hv P]. destruct (step_ok a v Hv) as [v' [n [S1 [S2 [_ [S4 [_ S5]]]]]]]. exists v', n. split; [exact S1|]. split; [exact S2|]. cbn [shifted_times]. destruct P as [[c P]|P].
    - pose proof (shifted_linear (of_real a) c _ _ P) as L. destruct S4 as [S4|S4].
      + left. exists (rmul c (of_real n)). intros s Hs. rewrite (L s Hs), (S5 s Hs), MA. f_equal. rewrite (ea_mul_comm _ EA). symmetry. now apply DV.
      + right. intros s Hs. rewrite (L s Hs), (S4 s Hs), (ea_mul_comm _ EA). apply (ea_mul_0 _ EA).
    - right. intros s Hs. rewrite (shifted_linear (of_real a) rzero _ (fun _ => rzero)) with (s := s); auto; [apply (ea_mul_0 _ EA)|]. intros s' Hs'. rewrite (P s' Hs'). symmetry. apply (ea_mul_0 _ EA).
  Qed.
  Theorem update_ok : forall k approx v, exact_state M N d v -> exists v' e, update k approx terms v = Ok (v', e) /\ exact_state M N d v' /\
    (not_zero M N d (shifted_times d (of_real (top approx)) terms k (comp v)) -> proportional M N d (shifted_times d (of_real (top approx)) terms k (comp v)) v').
  Proof.
    intros k approx v Hv. unfold exact_update. cbv zeta. fold (top approx). set (a := top approx).
    assert (G : forall j k0 v0 e0, follows a (comp v) k0 v0 -> exists v' e, foldM (fun (ve : tens * V) (_ : nat) => step a terms (fst ve)) (seq k0 j) (v0, e0) = Ok (v', e) /\ follows a (comp v) (k0 + j) v').
    { induction j as [|j IH]; intros k0 v0 e0 F; [exists v0, e0; rewrite Nat.add_0_r; now split|]. cbn [seq foldM fst]. destruct (follows_step a (comp v) k0 v0 F) as [v1 [n [-> F1]]]. cbn [bind].
      destruct (IH (S k0) v1 (vsub a n) F1) as [v' [e [G1 G2]]]. exists v', e. split; [exact G1|]. now rewrite <- Nat.add_succ_comm. }
    destruct (G k 0 v vzero) as [v' [e [G1 [G2 G3]]]].
    - split; [exact Hv|]. left. exists rone. intros s _. cbn [shifted_times]. now rewrite (ea_mul_1 _ EA).
    - rewrite G1. cbn [bind fst snd]. exists v', (vdiv e (of_nat (M * N))). split; [reflexivity|]. split; [exact G2|]. intros [s [Hs Nz]]. change (0 + k) with k in G3. destruct G3 as [G3|G3]; [exact G3|]. now rewrite (G3 s Hs) in Nz.
  Qed.
  (** ** eigenvectors *)
  Variable vone : V.
  Hypothesis MM : multiplicative_modulus vzero vone vmul greater of_real abs.
  Definition eigen (e : R) (v : tens) : Prop := exact_state M N d v /\ largest M N d vzero greater abs (comp v) vone /\ forall s, within s -> H (comp v) s = rmul e (comp v s).
  Lemma eigen_step : forall a e v, greater (abs (rsub (of_real a) e)) vzero = true -> eigen e v -> exists v', step a terms v = Ok (v', vsub a (abs (rsub (of_real a) e))) /\ eigen e v'.
  Proof.
    intros a e v Pos [Hv [[L1 L2] He]]. pose proof (m_order _ _ _ _ HV) as O. set (c := rsub (of_real a) e) in *.
    destruct (step_ok a v Hv) as [v' [n [S1 [S2 [S3 [_ [S5 S6]]]]]]].
    assert (F : forall s, within s -> shifted d (of_real a) terms (comp v) s = rmul c (comp v s)).
    { intros s Hs. unfold shifted. rewrite (He s Hs). unfold c. rewrite (ea_mul_comm _ EA (rsub _ _)), sub_mul. f_equal; apply (ea_mul_comm _ EA). }
    assert (At : exists s, within s /\ abs (comp v s) = vone).
    { destruct L2 as [L2|[s [Hs L2]]]; [|now exists s]. pose proof (mm_positive _ _ _ _ _ _ MM) as P. rewrite L2, (so_irrefl _ O) in P. discriminate. }
    destruct At as [s0 [Hs0 A0]].
    assert (Less : forall s, within s -> greater (abs (rmul c (comp v s))) (abs c) = false).
    { intros s Hs. pose proof (mm_less _ _ _ _ _ _ MM c _ _ (L1 s Hs)) as Q. rewrite (mm_one _ _ _ _ _ _ MM) in Q. now rewrite (mm_mul _ _ _ _ _ _ MM). }
    assert (Hn : n = abs c).
    { apply (largest_unique (shifted d (of_real a) terms (comp v))); [exact S5| |exact S3|].
      - destruct (greater vzero (abs c)) eqn:Q; [|reflexivity]. pose proof (so_trans _ O _ _ _ Pos Q) as X. now rewrite (so_irrefl _ O) in X.
      - split.
        + intros s Hs. rewrite (F s Hs). now apply Less.
        + right. exists s0. split; [exact Hs0|]. now rewrite (F s0 Hs0), (mm_mul _ _ _ _ _ _ MM), A0, (mm_one _ _ _ _ _ _ MM). }
    subst n. exists v'. split; [exact S1|]. split; [exact S2|].
    assert (D : forall s, within s -> comp v' s = rdiv (rmul c (comp v s)) (of_real (abs c))) by (intros s Hs; now rewrite (S6 s Hs), (F s Hs)).
    split; [split|].
    - intros s Hs. rewrite (D s Hs). apply (mm_divide _ _ _ _ _ _ MM); [exact Pos|]. now apply Less.
    - right. exists s0. split; [exact Hs0|]. rewrite (D s0 Hs0). assert (Q : abs (rmul c (comp v s0)) = abs c) by (now rewrite (mm_mul _ _ _ _ _ _ MM), A0, (mm_one _ _ _ _ _ _ MM)).
      symmetry. rewrite <- Q at 1. apply (mm_itself _ _ _ _ _ _ MM). now rewrite Q.
    - assert (Nz : of_real (abs c) <> rzero) by (now apply (m_positive _ _ _ _ HV)). intros s Hs.
      (* both sides times the divisor *)
      assert (Can : forall x y, rmul x (of_real (abs c)) = rmul y (of_real (abs c)) -> x = y).
      { intros x y Q. rewrite <- (DV x _ Nz), <- (DV y _ Nz). assert (Sw : forall z, rmul (rdiv z (of_real (abs c))) (of_real (abs c)) = z) by (intro; now apply DV). 
        rewrite !Sw. assert (I : rmul (rdiv rone (of_real (abs c))) (of_real (abs c)) = rone) by apply Sw. rewrite <- (ea_mul_1 _ EA x), <- (ea_mul_1 _ EA y), <- I, !MA. f_equal. now rewrite !(ea_mul_comm _ EA (of_real (abs c))). }
      apply Can. assert (P : forall s, within s -> rmul (of_real (abs c)) (comp v' s) = rmul c (comp v s)) by (intros s' Hs'; rewrite (D s' Hs'), (ea_mul_comm _ EA); now apply DV).
      rewrite (ea_mul_comm _ EA). rewrite MA, (ea_mul_comm _ EA (comp v' s)), (P s Hs).
      transitivity (H (fun s => rmul c (comp v s)) s).
      + unfold energy_of. rewrite (rsum_mul_l EA MD), map_map. f_equal. apply map_ext. intros [ps A]. cbn [fst snd]. symmetry. apply applied_linear; [|exact Hs]. intros s' Hs'. symmetry. now apply P.
      + transitivity (rmul c (H (comp v) s)).
        * unfold energy_of. rewrite (rsum_mul_l EA MD), map_map. f_equal. apply map_ext. intros [ps A]. cbn [fst snd]. apply applied_linear; [|exact Hs]. reflexivity.
        * rewrite (He s Hs). apply (mul_swap EA MA).
  Qed.
  Theorem update_eigen : forall k approx e v, exact_state M N d v -> largest M N d vzero greater abs (comp v) vone -> (forall s, within s -> H (comp v) s = rmul e (comp v s)) ->
    greater (abs (rsub (of_real (top approx)) e)) vzero = true ->
    exists v', update (S k) approx terms v = Ok (v', vdiv (vsub (top approx) (abs (rsub (of_real (top approx)) e))) (of_nat (M * N))) /\ exact_state M N d v' /\
      largest M N d vzero greater abs (comp v') vone /\ (forall s, within s -> H (comp v') s = rmul e (comp v' s)).
  Proof.
    intros k approx e v Hv Hl He Pos. unfold exact_update. cbv zeta. fold (top approx). set (a := top approx) in *.
    assert (G : forall j k0 v0 e0, eigen e v0 -> exists v', foldM (fun (ve : tens * V) (_ : nat) => step a terms (fst ve)) (seq k0 (S j)) (v0, e0) = Ok (v', vsub a (abs (rsub (of_real a) e))) /\ eigen e v').
    { induction j as [|j IH]; intros k0 v0 e0 F; cbn [seq foldM fst]; destruct (eigen_step a e v0 Pos F) as [v1 [-> F1]]; cbn [bind].
      - exists v1. now split.
      - destruct (IH (S k0) v1 (vsub a (abs (rsub (of_real a) e))) F1) as [v' [G1 G2]]. exists v'. split; [exact G1|exact G2]. }
    destruct (G k 0 v vzero (Logic.conj Hv (Logic.conj Hl He))) as [v' [G1 [G2 [G3 G4]]]]. rewrite G1. cbn [bind fst snd]. exists v'. auto.
  Qed.
  (** energies below the shift *)
  Hypothesis RD : real_difference vzero vsub greater of_real abs.
  Theorem update_energy : forall k approx e v, exact_state M N d v -> largest M N d vzero greater abs (comp v) vone -> (forall s, within s -> H (comp v) s = rmul (of_real e) (comp v s)) ->
    greater (top approx) e = true ->
    exists v', update (S k) approx terms v = Ok (v', vdiv e (of_nat (M * N))) /\ exact_state M N d v' /\
      largest M N d vzero greater abs (comp v') vone /\ (forall s, within s -> H (comp v') s = rmul (of_real e) (comp v' s)).
  Proof.
    intros k approx e v Hv Hl He G. destruct (update_eigen k approx (of_real e) v Hv Hl He) as [v' [U1 U2]].
    - rewrite (rd_abs _ _ _ _ _ RD) by exact G. now apply (rd_positive _ _ _ _ _ RD).
    - exists v'. split; [|exact U2]. rewrite U1, (rd_abs _ _ _ _ _ RD), (rd_back _ _ _ _ _ RD) by exact G. reflexivity.
  Qed.
End Update.
