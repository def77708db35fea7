(** Lemmas for C44: step numbers and spin configurations. *)
From Coq Require Import List Bool Arith ZArith Lia Permutation.
From Verif Require Import Base.Outcome Base.SMap Model.Symmetry Model.Schedule Model.Lazy Model.Mpi Model.SimpleUpdate Model.Sampling.
From Verif Require Import Spec.Bonds Spec.Lattice Spec.Sampling Proof.SymmetryFacts Proof.ScheduleFacts Proof.SimpleUpdateFacts.
Import ListNotations.
Open Scope Z_scope.

(** ** Digits, the lowest first *)
Fixpoint digits (d : Z) (n : nat) (step : Z) : list Z := match n with O => [] | S n => Z.modulo step d :: digits d n (Z.div step d) end.
Definition number (d : Z) (l : list Z) : Z := fold_right (fun s acc => s + d * acc) 0 l.
Lemma digits_length : forall d n step, length (digits d n step) = n.
Proof. intros d n. induction n as [|n IH]; intros step; cbn; [reflexivity|]. rewrite IH. reflexivity. Qed.
Lemma digits_valid : forall d n step, 0 < d -> valid_spins d (digits d n step).
Proof.
  intros d n. induction n as [|n IH]; intros step Hd s H; [destruct H|]. destruct H as [<-|H]; [apply Z.mod_pos_bound; exact Hd|apply (IH (step / d)); assumption].
Qed.
Lemma number_digits : forall d n step, 0 < d -> 0 <= step < d ^ Z.of_nat n -> number d (digits d n step) = step.
Proof.
  intros d n. induction n as [|n IH]; intros step Hd H.
  - cbn in *. lia.
  - cbn [digits number fold_right]. change (fold_right (fun s acc => s + d * acc) 0 (digits d n (step / d))) with (number d (digits d n (step / d))). rewrite IH; [|exact Hd|].
    + pose proof (Z.div_mod step d). lia.
    + rewrite Nat2Z.inj_succ, Z.pow_succ_r in H by lia. split; [apply Z.div_pos; lia|]. apply Z.div_lt_upper_bound; lia.
Qed.
Lemma digits_number : forall d l, valid_spins d l -> digits d (length l) (number d l) = l.
Proof.
  intros d. induction l as [|s l IH]; intros H; [reflexivity|]. cbn [length digits number fold_right]. fold (number d l).
  assert (Hs := H s (or_introl eq_refl)). rewrite (Z.add_comm s), (Z.mul_comm d). f_equal.
  - rewrite Z.add_comm, Z.mod_add by lia. apply Z.mod_small. lia.
  - rewrite Z.add_comm, Z.div_add by lia. rewrite Z.div_small by lia. rewrite Z.add_0_l. apply IH. intros t Ht. apply H. right. exact Ht.
Qed.
Lemma number_range : forall d l, valid_spins d l -> 0 <= number d l < d ^ Z.of_nat (length l).
Proof.
  intros d. induction l as [|s l IH]; intros H; [cbn; lia|]. assert (Hs := H s (or_introl eq_refl)). assert (Q : valid_spins d l) by (intros t Ht; apply H; right; exact Ht). apply IH in Q.
  cbn [length number fold_right]. fold (number d l). rewrite Nat2Z.inj_succ, Z.pow_succ_r by lia. nia.
Qed.

(** ** Spins *)
Lemma lookup_spin : forall M N (c : configuration) p, rectangle M N c -> inside M N p -> lookup (fst p) (snd p) c = Some (spin c p).
Proof.
  intros M N c [x y] R I. destruct (lookup_inside M N c x y R I) as [t E]. cbn [fst snd]. rewrite E. f_equal. unfold spin. cbn [fst snd]. unfold lookup in E.
  destruct ((x <? 0) || (y <? 0)); [discriminate|]. destruct (nth_error c (Z.to_nat x)) as [row|] eqn:E'; [|discriminate]. rewrite (nth_error_nth c _ [] E'). symmetry. apply (nth_error_nth row _ 0 E).
Qed.
Lemma get_spin_ok : forall M N c p, rectangle M N c -> inside M N p -> get_spin c p = Ok (spin c p).
Proof. intros M N c p R I. unfold get_spin. rewrite (lookup_spin M N c p R I). reflexivity. Qed.
Lemma spin_ext : forall M N c c', rectangle M N c -> rectangle M N c' -> (forall p, inside M N p -> spin c p = spin c' p) -> c = c'.
Proof.
  intros M N c c' R R' H. apply (rectangle_ext M N); [exact R|exact R'|]. intros x y.
  destruct (lookup x y c) as [s|] eqn:E.
  - assert (I := lookup_outside M N c x y s R E). change x with (fst (x, y)) in E at 1. change y with (snd (x, y)) in E at 2.
    change x with (fst (x, y)) at 1. change y with (snd (x, y)) at 2. rewrite (lookup_spin M N c' (x, y) R' I), <- (H _ I), <- E. apply (lookup_spin M N c (x, y) R I).
  - destruct (lookup x y c') as [s|] eqn:E'; [|reflexivity]. assert (I := lookup_outside M N c' x y s R' E'). destruct (lookup_inside M N c x y R I) as [t Et]. congruence.
Qed.
Lemma set_spin_ok : forall M N c p s, rectangle M N c -> inside M N p ->
  exists c', set_spin c p s = Ok c' /\ rectangle M N c' /\ forall q, inside M N q -> spin c' q = if eqb q p then s else spin c q.
Proof.
  intros M N c p s R I. unfold set_spin. rewrite (get_spin_ok M N c p R I). cbn [bind]. destruct (Z.eqb_spec (spin c p) s) as [E|E].
  - exists c. split; [reflexivity|]. split; [exact R|]. intros q _. destruct (eqb q p) eqn:Eq; [apply eqb_eq in Eq; subst q; congruence|reflexivity].
  - eexists. split; [reflexivity|]. assert (R' : rectangle M N (store (fst p) (snd p) s c)) by (apply store_rectangle; exact R). split; [exact R'|]. intros q Iq.
    assert (Q := lookup_spin M N _ q R' Iq). destruct p as [x y]. cbn [fst snd] in *. destruct (eqb q (x, y)) eqn:Eq; [apply eqb_eq in Eq; subst q|].
    + cbn [fst snd] in Q. rewrite (lookup_store M N c x y s R I) in Q. congruence.
    + apply eqb_false in Eq. rewrite lookup_store_other in Q; [|destruct I; cbn in *; lia|destruct I; cbn in *; lia|destruct q; cbn; congruence].
      rewrite (lookup_spin M N c q R Iq) in Q. congruence.
Qed.

Lemma in_cells : forall M N p, In p (cells M N) <-> inside M N p.
Proof.
  intros M N [x y]. unfold cells. rewrite in_flat_map. unfold inside. cbn [fst snd]. split.
  - intros [i [Hi H]]. apply in_map_iff in H. destruct H as [j [E Hj]]. inversion E. subst. apply in_upto in Hi, Hj. lia.
  - intros H. exists x. split; [apply in_upto; lia|]. apply in_map_iff. exists y. split; [reflexivity|apply in_upto; lia].
Qed.
Lemma nodup_cells : forall M N, NoDup (cells M N).
Proof.
  intros M N. unfold cells. apply nodup_flat_map; [apply nodup_upto| |].
  - intros i _. apply FinFun.Injective_map_NoDup; [intros a b E; inversion E; reflexivity|apply nodup_upto].
  - intros a b x _ _ Ha Hb. apply in_map_iff in Ha, Hb. destruct Ha as [j [<- _]], Hb as [j' [E _]]. inversion E. reflexivity.
Qed.
Lemma length_upto : forall n, length (upto n) = Z.to_nat n.
Proof. intros n. unfold upto. rewrite map_length, seq_length. reflexivity. Qed.
Lemma length_cells : forall M N, length (cells M N) = (Z.to_nat M * Z.to_nat N)%nat.
Proof.
  intros M N. unfold cells. rewrite <- (length_upto M). generalize (upto M) as l. induction l as [|i l IH]; [reflexivity|]. cbn [flat_map length Nat.mul]. rewrite app_length, map_length, length_upto. f_equal. exact IH.
Qed.
Lemma spins_valid : forall M N d c, valid_configuration M N d c <-> rectangle M N c /\ forall p, inside M N p -> 0 <= spin c p < d.
Proof.
  intros M N d c. unfold valid_configuration. split; intros [R H]; (split; [exact R|]).
  - intros p I. assert (Q := lookup_spin M N c p R I). unfold lookup in Q. destruct ((fst p <? 0) || (snd p <? 0)); [discriminate|].
    destruct (nth_error c (Z.to_nat (fst p))) as [row|] eqn:E; [|discriminate]. apply nth_error_In in E, Q. apply (H row E _ Q).
  - intros row Hr s Hs. apply In_nth_error in Hr, Hs. destruct Hr as [i Hi], Hs as [j Hj].
    assert (Li : (i < length c)%nat) by (apply nth_error_Some; congruence). assert (Lj : (j < length row)%nat) by (apply nth_error_Some; congruence).
    destruct R as [RM RN]. assert (Lr := RN row (nth_error_In _ _ Hi)). assert (I : inside M N (Z.of_nat i, Z.of_nat j)) by (unfold inside; cbn; lia).
    apply H in I. unfold spin in I. cbn [fst snd] in I. rewrite !Nat2Z.id in I. rewrite (nth_error_nth c i [] Hi), (nth_error_nth row j 0 Hj) in I. exact I.
Qed.

(** ** The loop over the sites *)
Notation ergodic_loop d := (fun (sc : Z * configuration) p =>
    let (step, c) := sc in
    if d =? 0 then UB else bind (set_spin c p (Z.modulo step d)) (fun c => Ok (Z.div step d, c))).
Lemma ergodic_loop_ok : forall M N d, 0 < d -> forall ps step c, NoDup ps -> (forall p, In p ps -> inside M N p) -> rectangle M N c ->
  exists step' c', foldM (ergodic_loop d) ps (step, c) = Ok (step', c') /\ rectangle M N c' /\ spins_at c' ps = digits d (length ps) step /\
    forall q, inside M N q -> ~ In q ps -> spin c' q = spin c q.
Proof.
  intros M N d Hd. induction ps as [|p ps IH]; intros step c ND I R.
  - exists step, c. split; [reflexivity|]. split; [exact R|]. split; [reflexivity|]. reflexivity.
  - inversion ND as [|? ? Hp ND']; subst. destruct (set_spin_ok M N c p (step mod d) R (I p (or_introl eq_refl))) as [c1 [E1 [R1 S1]]].
    destruct (IH (step / d) c1 ND' (fun q Hq => I q (or_intror Hq)) R1) as [step' [c' [E [R' [D O]]]]].
    exists step', c'. split; [|split; [exact R'|split]].
    + cbn [foldM]. destruct (Z.eqb_spec d 0); [lia|]. rewrite E1. cbn [bind]. exact E.
    + cbn [spins_at map length digits]. f_equal; [|exact D]. rewrite O by (try apply I; try (left; reflexivity); exact Hp). rewrite S1 by (apply I; left; reflexivity). rewrite eqb_refl. reflexivity.
    + intros q Iq Hq. rewrite O; [|exact Iq|intros H; apply Hq; right; exact H]. rewrite S1 by exact Iq. destruct (eqb q p) eqn:Eq; [|reflexivity]. apply eqb_eq in Eq. subst q. destruct Hq. left. reflexivity.
Qed.
Lemma ergodic_spin_ok : forall M N d step c, 0 < d -> rectangle M N c -> exists c', ergodic_spin M N d step c = Ok c' /\ valid_configuration M N d c' /\
  spins_at c' (cells M N) = digits d (length (cells M N)) step.
Proof.
  intros M N d step c Hd R. destruct (ergodic_loop_ok M N d Hd (cells M N) step c (nodup_cells M N) (fun p => proj1 (in_cells M N p)) R) as [step' [c' [E [R' [D _]]]]].
  exists c'. change (ergodic_spin M N d step c) with (bind (foldM (ergodic_loop d) (cells M N) (step, c)) (fun sc => Ok (snd sc))). rewrite E. cbn [bind snd]. split; [reflexivity|]. split; [|exact D]. apply spins_valid. split; [exact R'|]. intros p I.
  apply in_cells in I. assert (Q : In (spin c' p) (spins_at c' (cells M N))) by (apply in_map; exact I). rewrite D in Q. apply (digits_valid d _ step Hd _ Q).
Qed.
Lemma spins_determine : forall M N c c', rectangle M N c -> rectangle M N c' -> spins_at c (cells M N) = spins_at c' (cells M N) -> c = c'.
Proof.
  intros M N c c' R R' H. apply (spin_ext M N); [exact R|exact R'|]. intros p I. apply in_cells in I. revert p I. apply map_ext_in_iff. exact H.
Qed.
Lemma cells_power : forall M N d, 0 <= M -> 0 <= N -> d ^ (M * N) = d ^ Z.of_nat (length (cells M N)).
Proof. intros M N d HM HN. f_equal. rewrite length_cells. lia. Qed.

Theorem ergodic_valid : forall M N d step c, 0 < d -> rectangle M N c -> exists c', ergodic_spin M N d step c = Ok c' /\ valid_configuration M N d c'.
Proof. intros M N d step c Hd R. destruct (ergodic_spin_ok M N d step c Hd R) as [c' [E [Vc _]]]. eauto. Qed.
Theorem ergodic_injective : forall M N d step step' c c' r, 0 < d -> 0 <= M -> 0 <= N -> rectangle M N c -> rectangle M N c' ->
  0 <= step < d ^ (M * N) -> 0 <= step' < d ^ (M * N) -> ergodic_spin M N d step c = Ok r -> ergodic_spin M N d step' c' = Ok r -> step = step'.
Proof.
  intros M N d step step' c c' r Hd HM HN R R' B B' E E'. rewrite cells_power in B, B' by assumption.
  destruct (ergodic_spin_ok M N d step c Hd R) as [x [Ex [_ Dx]]]. destruct (ergodic_spin_ok M N d step' c' Hd R') as [y [Ey [_ Dy]]].
  assert (x = r) by congruence. assert (y = r) by congruence. subst. rewrite <- (number_digits d _ step Hd B), <- (number_digits d _ step' Hd B'). congruence.
Qed.
Theorem ergodic_surjective : forall M N d r c, 0 <= M -> 0 <= N -> valid_configuration M N d r -> rectangle M N c -> 0 < d -> exists step, 0 <= step < d ^ (M * N) /\ ergodic_spin M N d step c = Ok r.
Proof.
  intros M N d r c HM HN Vr R Hd. set (l := spins_at r (cells M N)).
  assert (Vl : valid_spins d l). { intros s Hs. apply in_map_iff in Hs. destruct Hs as [p [<- Hp]]. apply in_cells in Hp. apply (proj1 (spins_valid M N d r) Vr). exact Hp. }
  assert (Ll : length l = length (cells M N)) by apply map_length.
  exists (number d l). split; [rewrite cells_power by assumption; rewrite <- Ll; apply number_range; exact Vl|].
  destruct (ergodic_spin_ok M N d (number d l) c Hd R) as [c' [E [[R' _] D]]]. rewrite E. f_equal. apply (spins_determine M N); [exact R'|apply Vr|]. rewrite D, <- Ll. apply digits_number. exact Vl.
Qed.
(** what was there before does not matter *)
Theorem ergodic_forgets : forall M N d step c c', 0 < d -> rectangle M N c -> rectangle M N c' -> ergodic_spin M N d step c = ergodic_spin M N d step c'.
Proof.
  intros M N d step c c' Hd R R'. destruct (ergodic_spin_ok M N d step c Hd R) as [x [Ex [[Rx _] Dx]]]. destruct (ergodic_spin_ok M N d step c' Hd R') as [y [Ey [[Ry _] Dy]]].
  rewrite Ex, Ey. f_equal. apply (spins_determine M N); [exact Rx|exact Ry|]. congruence.
Qed.
