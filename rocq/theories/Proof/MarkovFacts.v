(** Lemmas for C43, C57: hopping between configurations at random. *)
From Coq Require Import List Bool Arith ZArith Lia Permutation Reals Lra.
From Verif Require Import Base.Outcome Base.SMap Model.Symmetry Model.Schedule Model.Lazy Model.Mpi Model.SimpleUpdate Model.Sampling.
From Verif Require Import Spec.Bonds Spec.Lattice Spec.Sampling Proof.SymmetryFacts Proof.ScheduleFacts Proof.SimpleUpdateFacts Proof.ErgodicFacts Proof.ElementFacts Proof.FlipFacts Proof.ObserveFacts.
Import ListNotations.
Open Scope R_scope.

(** ** Random programs *)
Lemma expect_bind : forall A B (m : rand A) (f : A -> rand B) g, expect (rbind m f) g = expect m (fun a => expect (f a) g).
Proof.
  intros A B m f g. induction m as [r|n k IH|p k IH]; cbn [rbind].
  - destruct r; reflexivity.
  - cbn [expect]. f_equal. apply rsum_ext. intros i _. apply IH.
  - cbn [expect]. rewrite !IH. reflexivity.
Qed.
Lemma always_bind : forall A B (m : rand A) (f : A -> rand B) P Q, always m P -> (forall a, P a -> always (f a) Q) -> always (rbind m f) Q.
Proof.
  intros A B m f P Q. induction m as [r|n k IH|p k IH]; cbn [rbind always]; intros H K.
  - destruct r; try contradiction. apply K. exact H.
  - destruct H as [Hn H]. split; [exact Hn|]. intros i Hi. apply IH; [apply H; exact Hi|exact K].
  - destruct H as [H1 H2]. split; intros Hp; apply IH; auto.
Qed.
Lemma always_impl : forall A (m : rand A) (P Q : A -> Prop), always m P -> (forall a, P a -> Q a) -> always m Q.
Proof.
  intros A m P Q. induction m as [r|n k IH|p k IH]; cbn [always]; intros H K.
  - destruct r; try contradiction. apply K. exact H.
  - destruct H as [Hn H]. split; [exact Hn|]. intros i Hi. apply IH; [apply H; exact Hi|exact K].
  - destruct H as [H1 H2]. split; intros Hp; apply IH; auto.
Qed.
Lemma clamp_low : forall p, ~ 0 < p -> Rmax 0 (Rmin 1 p) = 0.
Proof. intros p H. rewrite Rmin_right by lra. apply Rmax_left. lra. Qed.
Lemma clamp_high : forall p, ~ p < 1 -> Rmax 0 (Rmin 1 p) = 1.
Proof. intros p H. rewrite Rmin_left by lra. apply Rmax_right. lra. Qed.
Lemma expect_ext : forall A (m : rand A) (P : A -> Prop) g h, always m P -> (forall a, P a -> g a = h a) -> expect m g = expect m h.
Proof.
  intros A m P g h. induction m as [r|n k IH|p k IH]; cbn [always]; intros H K.
  - destruct r; try contradiction. cbn. apply K. exact H.
  - destruct H as [Hn H]. cbn [expect]. f_equal. apply rsum_ext. intros i Hi. apply in_seq in Hi. apply IH; [apply H; lia|exact K].
  - destruct H as [H1 H2]. cbn [expect]. destruct (Rlt_dec 0 p) as [L|L]; destruct (Rlt_dec p 1) as [U|U].
    + rewrite (IH true), (IH false) by auto. reflexivity.
    + rewrite (IH true) by auto. rewrite (clamp_high p U). lra.
    + rewrite (IH false) by auto. rewrite (clamp_low p L). lra.
    + lra.
Qed.
Lemma expect_const : forall A (m : rand A) (P : A -> Prop) x, always m P -> expect m (fun _ => x) = x.
Proof.
  intros A m P x. induction m as [r|n k IH|p k IH]; cbn [always]; intros H.
  - destruct r; try contradiction. reflexivity.
  - destruct H as [Hn H]. cbn [expect]. rewrite (rsum_ext _ _ (fun _ => x * 1)) by (intros i Hi; apply in_seq in Hi; rewrite Rmult_1_r; apply IH, H; lia).
    rewrite rsum_scal. assert (E : rsum (map (fun _ : nat => 1) (seq 0 n)) = INR n). { generalize 0%nat. clear. induction n as [|n IHn]; intros s; [reflexivity|]. cbn [seq map]. rewrite rsum_cons, IHn, S_INR. lra. }
    rewrite E. field. apply not_0_INR. exact Hn.
  - destruct H as [H1 H2]. cbn [expect]. destruct (Rlt_dec 0 p) as [L|L]; destruct (Rlt_dec p 1) as [U|U].
    + rewrite (IH true), (IH false) by auto. lra.
    + rewrite (IH true) by auto. rewrite (clamp_high p U). lra.
    + rewrite (IH false) by auto. rewrite (clamp_low p L). lra.
    + lra.
Qed.
Lemma expect_linear : forall A (m : rand A) g h x y, expect m (fun a => x * g a + y * h a) = x * expect m g + y * expect m h.
Proof.
  intros A m g h x y. induction m as [r|n k IH|p k IH].
  - destruct r; cbn; lra.
  - cbn [expect]. rewrite (rsum_ext _ _ (fun i => x * expect (k i) g + y * expect (k i) h)) by (intros i _; apply IH). rewrite rsum_plus, !rsum_scal. unfold Rdiv. lra.
  - cbn [expect]. rewrite !IH. lra.
Qed.

Lemma F2_length : forall A B (Q : A -> B -> Prop) la lb, Forall2 Q la lb -> length la = length lb.
Proof. intros A B Q la lb F. induction F; cbn; congruence. Qed.
Arguments F2_length {A B Q la lb}.

(** ** Detailed balance from symmetric kernels *)
Section Balance.
  Context {V : Type}.
  Variables (is_zero : V -> bool) (psi : configuration -> V) (over : V -> V -> V) (norm : V -> R).
  Variables (M N d : Z).
  Variable all : list configuration.
  Hypothesis Hd : (0 < d)%Z.
  Hypothesis All : enumerates M N d all.
  Hypothesis norm_over : forall a b, is_zero b = false -> norm (over a b) = norm a / norm b.
  Hypothesis norm_nonneg : forall v, 0 <= norm v.
  Hypothesis norm_zero : forall v, is_zero v = true <-> norm v = 0.
  Notation w c := (norm (psi c)).
  Notation state := (configuration * V)%type.
  (** the states the programs go through *)
  Definition fine (s : state) : Prop := valid_configuration M N d (fst s) /\ snd s = psi (fst s).
  Definition good (S : state -> rand state) : Prop := forall s, fine s -> always (S s) fine.
  Definition after (S : state -> rand state) (g : configuration -> R) (c : configuration) : R := expect (S (c, psi c)) (fun s => g (fst s)).
  Definition adjoint (S S' : state -> rand state) : Prop := forall f g, rsum (map (fun c => w c * f c * after S g c) all) = rsum (map (fun c => w c * after S' f c * g c) all).
  Lemma in_valid : forall c, In c all <-> valid_configuration M N d c.
  Proof. apply All. Qed.
  Lemma fine_here : forall c, valid_configuration M N d c -> fine (c, psi c).
  Proof. intros c H. split; [exact H|reflexivity]. Qed.
  Lemma after_ext : forall S g h c, good S -> valid_configuration M N d c -> (forall c', valid_configuration M N d c' -> g c' = h c') -> after S g c = after S h c.
  Proof. intros S g h c G Vc H. apply (expect_ext _ _ fine); [apply G, fine_here, Vc|]. intros s [Vs _]. apply H. exact Vs. Qed.
  Lemma after_bind : forall S1 S2 g c, good S1 -> valid_configuration M N d c -> after (fun s => rbind (S1 s) S2) g c = after S1 (after S2 g) c.
  Proof.
    intros S1 S2 g c G Vc. unfold after. rewrite expect_bind. apply (expect_ext _ _ fine); [apply G, fine_here, Vc|]. intros [c' v] [_ E]. cbn in E |- *. subst v. reflexivity.
  Qed.
  Lemma good_bind : forall S1 S2, good S1 -> good S2 -> good (fun s => rbind (S1 s) S2).
  Proof. intros S1 S2 G1 G2 s F. apply (always_bind _ _ _ _ fine); [apply G1; exact F|]. intros a Fa. apply G2. exact Fa. Qed.
  Lemma good_ret : good (fun s => Ret (Ok s)).
  Proof. intros s F. exact F. Qed.
  Lemma sum_ext : forall f g : configuration -> R, (forall c, valid_configuration M N d c -> f c = g c) -> rsum (map f all) = rsum (map g all).
  Proof. intros f g H. apply rsum_ext. intros c Hc. apply H, in_valid, Hc. Qed.
  Lemma adjoint_ret : adjoint (fun s => Ret (Ok s)) (fun s => Ret (Ok s)).
  Proof. intros f g. apply sum_ext. intros c _. unfold after. cbn. lra. Qed.
  Lemma adjoint_bind : forall S1 S1' S2 S2', good S1 -> good S2' -> adjoint S1 S1' -> adjoint S2 S2' -> adjoint (fun s => rbind (S1 s) S2) (fun s => rbind (S2' s) S1').
  Proof.
    intros S1 S1' S2 S2' G1 G2 A1 A2 f g.
    rewrite (sum_ext _ (fun c => w c * f c * after S1 (after S2 g) c)) by (intros c Vc; rewrite after_bind by assumption; reflexivity).
    rewrite (A1 f). rewrite (A2 (after S1' f)). apply sum_ext. intros c Vc. rewrite after_bind by assumption. reflexivity.
  Qed.
  Lemma good_adjoint_self : forall S S', good S -> (forall c, valid_configuration M N d c -> forall g, expect (S (c, psi c)) g = expect (S' (c, psi c)) g) -> forall g c, valid_configuration M N d c -> after S g c = after S' g c.
  Proof. intros S S' _ H g c Vc. apply H. exact Vc. Qed.
  Definition delta (x c : configuration) : R := if same_configuration c x then 1 else 0.
  Lemma delta_same : forall x, delta x x = 1.
  Proof. intros x. unfold delta, same_configuration. rewrite eqb_refl. reflexivity. Qed.
  Lemma delta_other : forall x c, c <> x -> delta x c = 0.
  Proof. intros x c H. unfold delta, same_configuration. destruct (eqb c x) eqn:E; [apply eqb_eq in E; contradiction|reflexivity]. Qed.
  Lemma sum_delta : forall (f : configuration -> R) x, valid_configuration M N d x -> rsum (map (fun c => delta x c * f c) all) = f x.
  Proof.
    intros f x Vx. rewrite (rsum_one _ ord_dec (fun c => delta x c * f c) all x); [rewrite delta_same; lra|apply All|apply in_valid; exact Vx|]. intros b _ Hb. rewrite delta_other by exact Hb. lra.
  Qed.
  Lemma after_chance : forall S x c, after S (delta x) c = chance (S (c, psi c)) x.
  Proof. reflexivity. Qed.
  Lemma adjoint_balance : forall S S' c c', adjoint S S' -> valid_configuration M N d c -> valid_configuration M N d c' -> w c * chance (S (c, psi c)) c' = w c' * chance (S' (c', psi c')) c.
  Proof.
    intros S S' c c' A Vc Vc'. specialize (A (delta c) (delta c')). rewrite (rsum_ext _ _ (fun x => delta c x * (w x * after S (delta c') x))) in A by (intros; lra).
    rewrite sum_delta in A by exact Vc. rewrite (rsum_ext _ _ (fun x => delta c' x * (w x * after S' (delta c) x))) in A by (intros; lra). rewrite sum_delta in A by exact Vc'. exact A.
  Qed.
  Lemma adjoint_mean : forall S S' g, good S' -> adjoint S S' -> rsum (map (fun c => w c * after S g c) all) = rsum (map (fun c => w c * g c) all).
  Proof.
    intros S S' g G A. rewrite (sum_ext _ (fun c => w c * 1 * after S g c)) by (intros; lra). rewrite (A (fun _ => 1)). apply sum_ext. intros c Vc. unfold after. rewrite (expect_const _ _ fine) by (apply G, fine_here, Vc). lra.
  Qed.
  Lemma adjoint_stationary : forall S S' x, good S' -> adjoint S S' -> valid_configuration M N d x -> rsum (map (fun c => w c * chance (S (c, psi c)) x) all) = w x.
  Proof.
    intros S S' x G A Vx. rewrite (sum_ext _ (fun c => w c * after S (delta x) c)) by reflexivity. rewrite (adjoint_mean S S' _ G A). rewrite (rsum_ext _ _ (fun c => delta x c * w c)) by (intros; lra). apply sum_delta. exact Vx.
  Qed.

  (** ** one term *)
  Section Term.
    Variables (ps : positions) (op : operator V) (el : list Z -> V).
    Hypothesis Act : acts_as d op el.
    Hypothesis Body : body op = length ps.
    Hypothesis ND : NoDup ps.
    Hypothesis Ins : forall p, In p ps -> inside M N p.
    Hypothesis Sym : symmetric_pattern is_zero d op el.
    Definition open_row (c : configuration) : Prop := exists outs, spins_of d (body op) outs /\ is_zero (el (spins_at c ps ++ outs)) = false.
    Definition reach (c c' : configuration) : bool := agree_off M N ps c c' && negb (is_zero (el (spins_at c ps ++ spins_at c' ps))) && negb (eqb (spins_at c ps) (spins_at c' ps)).
    Definition degree (c : configuration) : nat := length (filter (reach c) all).
    Definition clamp (p : R) : R := Rmax 0 (Rmin 1 p).
    Definition rate (c c' : configuration) : R := clamp (acceptance is_zero over norm (psi c) (psi c') (degree c) (degree c')).
    Definition kernel (c c' : configuration) : R := if reach c c' then rate c c' / INR (degree c) else 0.
    Lemma reach_sym : forall c c', valid_configuration M N d c -> valid_configuration M N d c' -> reach c c' = reach c' c.
    Proof.
      intros c c' Vc Vc'. unfold reach. assert (Sc := spins_at_valid M N d c ps Vc Ins). assert (Sc' := spins_at_valid M N d c' ps Vc' Ins). rewrite <- Body in Sc, Sc'. rewrite (Sym _ _ Sc Sc'). f_equal; [f_equal|].
      - apply eq_true_iff_eq. rewrite !agree_off_spec. split; intros H q I Hq; symmetry; apply H; assumption.
      - f_equal. destruct (ord_dec (spins_at c ps) (spins_at c' ps)) as [E|E]; [rewrite E; reflexivity|]. rewrite (proj2 (eqb_false _ _) E). symmetry. apply eqb_false. congruence.
    Qed.
    Lemma row_reached : forall c row cs, valid_configuration M N d c -> NoDup (map fst row) ->
      (forall outs v, In (outs, v) row <-> spins_of d (body op) outs /\ v = el (spins_at c ps ++ outs) /\ is_zero v = false /\ spins_at c ps <> outs) ->
      Forall2 (fun oe c' => flipped M N c ps (fst oe) c') row cs -> Permutation cs (filter (reach c) all).
    Proof.
      intros c row cs Vc NDr Rw Fs. apply NoDup_Permutation.
      - revert NDr. clear - Fs. revert row Fs. induction cs as [|c0 cs IH]; intros row Fs NDr; [constructor|]. inversion Fs as [|[o x] row0 row' ? F Fs']; subst. cbn [map fst] in NDr. inversion NDr as [|? ? Ho NDr']; subst.
        assert (QQ : forall c', In c' cs -> In (spins_at c' ps) (map fst row')).
        { clear - Fs'. revert row' Fs'. induction cs as [|c1 cs IH]; intros row' Fs' c' H; [destruct H|]. inversion Fs' as [|[o x] ? row'' ? F Fs'']; subst. destruct H as [<-|H].
          - left. destruct F as [_ [F _]]. cbn in F |- *. congruence.
          - right. apply (IH row'' Fs'' c' H). }
        constructor.
        + intros H. apply QQ in H. destruct F as [_ [F _]]. cbn in F. rewrite F in H. contradiction.
        + apply (IH row' Fs' NDr').
      - apply NoDup_filter, All.
      - intros c'. rewrite filter_In, in_valid. unfold reach. rewrite !andb_true_iff, !negb_true_iff, eqb_false. split.
        + intros H. assert (Q : exists outs x, In (outs, x) row /\ flipped M N c ps outs c').
          { clear - Fs H. revert row Fs. induction cs as [|c0 cs IH]; intros row Fs; [destruct H|]. inversion Fs as [|[o x] ? row' ? F Fs']; subst. destruct H as [<-|H].
            - exists o, x. split; [left; reflexivity|exact F].
            - destruct (IH H row' Fs') as [o' [x' [H1 H2]]]. exists o', x'. split; [right; exact H1|exact H2]. }
          destruct Q as [outs [x [Hr F]]]. apply Rw in Hr. destruct Hr as [Ho [Ex [Zx Ne]]]. assert (Vc' := flipped_valid M N d c ps outs c' Vc F (proj2 Ho)).
          assert (Fo : spins_at c' ps = outs) by apply F. subst x. rewrite Fo. split; [exact Vc'|]. split; [|exact Ne]. split; [|exact Zx]. apply agree_flipped; [apply Vc'|]. rewrite Fo. exact F.
        + intros [Ha [[Hg Hn] Ne]]. apply agree_flipped in Hg; [|apply Ha].
          assert (So := spins_at_valid M N d c' ps Ha Ins). rewrite <- Body in So. assert (Hr := proj2 (Rw (spins_at c' ps) _) (conj So (conj eq_refl (conj Hn Ne)))).
          clear - Fs Hr Hg. revert row Fs Hr. induction cs as [|c0 cs IH]; intros row Fs Hr; inversion Fs as [|[o x] ? row' ? F Fs']; subst; [destruct Hr|]. destruct Hr as [Hr|Hr].
          * left. injection Hr as -> _. apply (flipped_unique M N c ps (spins_at c' ps)); assumption.
          * right. apply (IH row' Fs' Hr).
    Qed.
    Lemma row_configurations : forall c (row : list (list Z * V)), rectangle M N c -> (forall outs x, In (outs, x) row -> length outs = length ps) ->
      exists cs, Forall2 (fun oe c' => flipped M N c ps (fst oe) c') row cs.
    Proof.
      intros c row R. induction row as [|[outs x] row IH]; intros Len; [exists []; constructor|]. destruct (set_all_flipped M N c ps outs ND Ins R (Len outs x (or_introl eq_refl))) as [c' [_ F]].
      destruct (IH (fun o y H => Len o y (or_intror H))) as [cs Fs]. exists (c' :: cs). constructor; assumption.
    Qed.
    Notation step := (markov_term is_zero psi over norm d ps op).
    Lemma nth_error_Forall2 : forall A B (Q : A -> B -> Prop) la lb i a, Forall2 Q la lb -> nth_error la i = Some a -> exists b, nth_error lb i = Some b /\ Q a b.
    Proof. intros A B Q la lb i a F. revert i. induction F as [|x y la lb H F IH]; intros [|i] E; try discriminate; cbn in *; [injection E as <-; exists y; tauto|apply IH; exact E]. Qed.
    (** what one attempt does *)
    Lemma term_run : forall c, valid_configuration M N d c -> open_row c -> exists cs, Permutation cs (filter (reach c) all) /\
      match cs with
      | [] => step (c, psi c) = Ret (Ok (c, psi c))
      | _ => exists k, step (c, psi c) = Draw (length cs) k /\ forall i, (i < length cs)%nat -> exists c' k', nth_error cs i = Some c' /\
          k i = Accept (acceptance is_zero over norm (psi c) (psi c') (degree c) (degree c')) k' /\ k' true = Ret (Ok (c', psi c')) /\ k' false = Ret (Ok (c, psi c))
      end.
    Proof.
      intros c Vc Oc. destruct (find_hopping_lists is_zero d op el Hd Act) as [m [Em Lm]].
      assert (Row : forall x, valid_configuration M N d x -> open_row x -> exists row, mfind (spins_at x ps) m = Some row /\ NoDup (map fst row) /\
        (forall outs v, In (outs, v) row <-> spins_of d (body op) outs /\ v = el (spins_at x ps ++ outs) /\ is_zero v = false /\ spins_at x ps <> outs)).
      { intros x Vx [outs [Ho Hz]]. assert (Sx := spins_at_valid M N d x ps Vx Ins). rewrite <- Body in Sx. destruct (Lm _ Sx) as [L1 L2]. destruct (mfind (spins_at x ps) m) as [row|] eqn:Er.
        - exists row. split; [reflexivity|]. apply L2. reflexivity.
        - exfalso. rewrite (proj1 L1 eq_refl outs Ho) in Hz. discriminate. }
      assert (Deg : forall x row, valid_configuration M N d x -> open_row x -> mfind (spins_at x ps) m = Some row -> exists cs, Forall2 (fun oe c' => flipped M N x ps (fst oe) c') row cs /\ Permutation cs (filter (reach x) all) /\ length row = degree x /\ forall outs v, In (outs, v) row -> spins_of d (length ps) outs).
      { intros x row Vx Ox Er. destruct (Row x Vx Ox) as [row' [Er' [NDr Rw]]]. assert (row' = row) by congruence. subst row'.
        assert (Len : forall outs v, In (outs, v) row -> spins_of d (length ps) outs) by (intros outs v H; apply Rw in H; rewrite <- Body; apply H).
        destruct (row_configurations x row (proj1 Vx) (fun o v H => proj1 (Len o v H))) as [cs Fs]. exists cs. assert (P := row_reached x row cs Vx NDr Rw Fs). split; [exact Fs|]. split; [exact P|]. split; [|exact Len].
        unfold degree. rewrite <- (Permutation_length P). exact (F2_length Fs). }
      destruct (Row c Vc Oc) as [row [Er [NDr Rw]]]. destruct (Deg c row Vc Oc Er) as [cs [Fs [P [Dc Len]]]]. exists cs. split; [exact P|].
      assert (Lcs := F2_length Fs).
      unfold markov_term. rewrite (current_ok M N c ps Ins (proj1 Vc)). cbn [bind]. rewrite Em. cbn [bind]. rewrite Er. cbn [at_or_throw bind rbind].
      destruct row as [|oe0 row0]; [inversion Fs; reflexivity|]. destruct cs as [|c0 cs0]; [discriminate|]. cbv iota. set (row := oe0 :: row0) in *. set (cs := c0 :: cs0) in *.
      rewrite <- Lcs. eexists. split; [reflexivity|]. intros i Hi. destruct (nth_error row i) as [[outs v]|] eqn:Eo; [|apply nth_error_None in Eo; lia].
      destruct (nth_error_Forall2 _ _ _ _ _ _ _ Fs Eo) as [c' [Ec' F]]. cbn [fst] in F. assert (Ho := Len outs v (nth_error_In _ _ Eo)). assert (Vc' := flipped_valid M N d c ps outs c' Vc F (proj2 Ho)).
      destruct (replaced_ok M N psi c ps outs ND Ins (proj1 Vc) (proj1 Ho)) as [mm [c'' [Emm [F' Er']]]]. assert (c'' = c') by (apply (flipped_unique M N c ps outs); assumption). subst c''.
      assert (Fo : spins_at c' ps = outs) by apply F.
      assert (Oc' : open_row c'). { assert (Sc := spins_at_valid M N d c ps Vc Ins). rewrite <- Body in Sc. exists (spins_at c ps). split; [exact Sc|]. rewrite Fo. rewrite <- Body in Ho. rewrite (Sym _ _ Ho Sc). destruct (proj1 (Rw outs v) (nth_error_In _ _ Eo)) as [_ [Ev [Zv _]]]. congruence. }
      destruct (Row c' Vc' Oc') as [row' [Er'' _]]. destruct (Deg c' row' Vc' Oc' Er'') as [_ [_ [_ [Dc' _]]]]. rewrite Fo in Er''.
      destruct (set_all_flipped M N c ps outs ND Ins (proj1 Vc) (proj1 Ho)) as [c3 [Es F3]]. assert (c3 = c') by (apply (flipped_unique M N c ps outs); assumption). subst c3.
      exists c'. eexists. split; [exact Ec'|]. cbv beta. rewrite Eo. cbn [get_or_ub bind fst]. rewrite Emm. cbn [bind]. rewrite Er'. cbn [bind]. rewrite Er''. cbn [at_or_throw bind rbind]. rewrite Dc, Dc'. split; [reflexivity|].
      cbn beta iota. split; [|reflexivity]. rewrite Es. reflexivity.
    Qed.
    Lemma good_at : forall c, valid_configuration M N d c -> open_row c -> always (step (c, psi c)) fine.
    Proof.
      intros c Vc Oc. destruct (term_run c Vc Oc) as [cs [P H]]. destruct cs as [|c0 cs0] eqn:Ecs.
      - rewrite H. apply fine_here. exact Vc.
      - rewrite <- Ecs in *. destruct H as [k [E H]]. rewrite E. cbn [always]. split; [rewrite Ecs; discriminate|]. intros i Hi. destruct (H i Hi) as [c' [k' [Ei [Ek [E1 E2]]]]]. rewrite Ek. cbn [always]. rewrite E1, E2.
        assert (Vc' : valid_configuration M N d c'). { apply nth_error_In in Ei. apply (Permutation_in _ P) in Ei. apply filter_In in Ei. apply in_valid, Ei. }
        split; intros _; apply fine_here; assumption.
    Qed.
    Lemma term_after : forall g c, valid_configuration M N d c -> open_row c -> after step g c = rsum (map (fun c' => kernel c c' * g c') all) + (1 - rsum (map (kernel c) all)) * g c.
    Proof.
      intros g c Vc Oc. destruct (term_run c Vc Oc) as [cs [P H]].
      assert (Dc : degree c = length cs) by (unfold degree; rewrite (Permutation_length P); reflexivity).
      assert (K : forall h : configuration -> R, rsum (map (fun c' => kernel c c' * h c') all) = rsum (map (fun c' => rate c c' / INR (degree c) * h c') cs)).
      { intros h. rewrite (rsum_perm _ _ (Permutation_map (fun c' => rate c c' / INR (degree c) * h c') P)). rewrite <- rsum_filter. apply rsum_ext. intros c' _. unfold kernel. destruct (reach c c'); lra. }
      rewrite K. rewrite (rsum_ext _ (kernel c) (fun c' => kernel c c' * 1)) by (intros; lra). rewrite (K (fun _ => 1)). clear K.
      destruct cs as [|c0 cs0] eqn:Ecs.
      - unfold after. rewrite H. cbn. lra.
      - rewrite <- Ecs in *. destruct H as [k [E H]]. unfold after. rewrite E. cbn [expect]. rewrite Dc. assert (NZ : INR (length cs) <> 0) by (apply not_0_INR; rewrite Ecs; discriminate).
        assert (Q : rsum (map (fun i => expect (k i) (fun s => g (fst s))) (seq 0 (length cs))) = rsum (map (fun c' => rate c c' * g c' + (1 - rate c c') * g c) cs)).
        { f_equal. clear - H. assert (H' : forall i c', nth_error cs i = Some c' -> expect (k i) (fun s => g (fst s)) = rate c c' * g c' + (1 - rate c c') * g c).
          { intros i c' Ei. assert (Hi : (i < length cs)%nat) by (apply nth_error_Some; congruence). destruct (H i Hi) as [c'' [k' [Ei' [Ek [E1 E2]]]]]. assert (c'' = c') by congruence. subst c''. rewrite Ek. cbn [expect]. rewrite E1, E2. reflexivity. }
          clear H. revert H'. revert k. induction cs as [|x cs IH]; intros k H'; [reflexivity|]. cbn [length seq map]. f_equal; [apply (H' 0%nat x); reflexivity|]. rewrite <- seq_shift, map_map. apply IH. intros i c' Ei. apply (H' (S i) c'). exact Ei. }
        rewrite Q. rewrite (rsum_ext _ _ (fun c' => (rate c c' * g c' + (- g c) * rate c c') + g c * 1)) by (intros; lra). rewrite !rsum_plus, !rsum_scal.
        assert (L : rsum (map (fun _ : configuration => 1) cs) = INR (length cs)). { clear. induction cs as [|x cs IH]; [reflexivity|]. cbn [map length]. rewrite rsum_cons, IH, S_INR. lra. }
        rewrite L. rewrite (rsum_ext _ (fun c' => rate c c' / INR (length cs) * g c') (fun c' => / INR (length cs) * (rate c c' * g c'))) by (intros; unfold Rdiv; lra).
        rewrite (rsum_ext _ (fun c' => rate c c' / INR (length cs) * 1) (fun c' => / INR (length cs) * rate c c')) by (intros; unfold Rdiv; lra).
        rewrite !rsum_scal. field. exact NZ.
    Qed.
    Lemma kernel_balance : forall c c', valid_configuration M N d c -> valid_configuration M N d c' -> w c * kernel c c' = w c' * kernel c' c.
    Proof.
      intros c c' Vc Vc'. unfold kernel. rewrite (reach_sym c' c Vc' Vc). destruct (reach c c') eqn:Rc; [|lra].
      assert (Pos : forall x y, valid_configuration M N d y -> reach x y = true -> 0 < INR (degree x)).
      { intros x y Vy H. apply lt_0_INR. unfold degree. assert (I : In y (filter (reach x) all)) by (apply filter_In; split; [apply in_valid; exact Vy|exact H]). destruct (filter (reach x) all); [destruct I|cbn; lia]. }
      assert (P := Pos c c' Vc' Rc). assert (P' := Pos c' c Vc (eq_trans (reach_sym c' c Vc' Vc) Rc)).
      assert (N0 : forall x, (0 < INR (degree x)) -> Nat.eqb (degree x) 0 = false). { intros x H. apply Nat.eqb_neq. intros E. rewrite E in H. cbn in H. lra. }
      unfold rate, acceptance. rewrite (N0 c P), (N0 c' P'). destruct (is_zero (psi c)) eqn:Zc; destruct (is_zero (psi c')) eqn:Zc'.
      - rewrite (proj1 (norm_zero _) Zc), (proj1 (norm_zero _) Zc'). lra.
      - rewrite (proj1 (norm_zero _) Zc). unfold clamp. rewrite (clamp_low 0) by lra. lra.
      - rewrite (proj1 (norm_zero _) Zc'). unfold clamp. rewrite (clamp_low 0) by lra. lra.
      - rewrite (norm_over _ _ Zc), (norm_over _ _ Zc').
        assert (Wp : forall x, is_zero (psi x) = false -> 0 < w x). { intros x Zx. destruct (norm_nonneg (psi x)) as [H|H]; [exact H|]. symmetry in H. apply norm_zero in H. congruence. }
        assert (W := Wp c Zc). assert (W' := Wp c' Zc'). set (a := w c) in *. set (b := w c') in *. set (n := INR (degree c)) in *. set (n' := INR (degree c')) in *.
        assert (Cl : forall x y, 0 < y -> 0 < x -> clamp (x / y) = Rmin x y / y).
        { intros x y Hy Hx. unfold clamp. rewrite Rmax_right; [|apply Rmin_glb; [lra|]; apply Rlt_le, Rdiv_lt_0_compat; assumption]. unfold Rmin at 2. destruct (Rle_dec x y) as [L|L].
          - apply Rmin_right. apply (Rmult_le_reg_r y); [exact Hy|]. unfold Rdiv. rewrite Rmult_assoc, Rinv_l by lra. lra.
          - rewrite Rmin_left; [field; lra|]. apply (Rmult_le_reg_r y); [exact Hy|]. unfold Rdiv. rewrite Rmult_assoc, Rinv_l by lra. lra. }
        replace (b / a * n / n') with ((b * n) / (a * n')) by (field; lra). replace (a / b * n' / n) with ((a * n') / (b * n)) by (field; lra).
        assert (0 < b * n) by (apply Rmult_lt_0_compat; assumption). assert (0 < a * n') by (apply Rmult_lt_0_compat; assumption).
        rewrite !Cl by assumption. rewrite (Rmin_comm (a * n')). field. repeat split; lra.
    Qed.
    (** without non-zero elements the attempt fails *)
    Lemma closed_row : forall c, valid_configuration M N d c -> (forall outs, spins_of d (body op) outs -> is_zero (el (spins_at c ps ++ outs)) = true) -> step (c, psi c) = Ret (Throw OutOfRange).
    Proof.
      intros c Vc Z. destruct (find_hopping_lists is_zero d op el Hd Act) as [m [Em Lm]]. assert (Sc := spins_at_valid M N d c ps Vc Ins). rewrite <- Body in Sc.
      unfold markov_term. rewrite (current_ok M N c ps Ins (proj1 Vc)). cbn [bind]. rewrite Em. cbn [bind]. rewrite (proj2 (proj1 (Lm _ Sc)) Z). reflexivity.
    Qed.
    Lemma row_dec : forall c, valid_configuration M N d c -> open_row c \/ forall outs, spins_of d (body op) outs -> is_zero (el (spins_at c ps ++ outs)) = true.
    Proof.
      intros c Vc. destruct (find_hopping_lists is_zero d op el Hd Act) as [m [Em Lm]]. assert (Sc := spins_at_valid M N d c ps Vc Ins). rewrite <- Body in Sc.
      assert (A : forall outs, In outs (all_indices d (body op)) <-> spins_of d (body op) outs) by (intros outs; apply in_all_indices; exact Hd).
      destruct (forallb (fun outs => is_zero (el (spins_at c ps ++ outs))) (all_indices d (body op))) eqn:E.
      - right. intros outs Ho. rewrite forallb_forall in E. apply E, A, Ho.
      - left. assert (Q : exists outs, In outs (all_indices d (body op)) /\ is_zero (el (spins_at c ps ++ outs)) = false).
        { clear A. revert E. induction (all_indices d (body op)) as [|o l IH]; [discriminate|]. cbn. destruct (is_zero (el (spins_at c ps ++ o))) eqn:Z; [|intros _; exists o; tauto]. intros E. destruct (IH E) as [x [Hx Hz]]. exists x. tauto. }
        destruct Q as [outs [H Z]]. exists outs. split; [apply A; exact H|exact Z].
    Qed.
    Lemma term_chance : forall c c', valid_configuration M N d c -> valid_configuration M N d c' -> c <> c' -> chance (step (c, psi c)) c' = kernel c c'.
    Proof.
      intros c c' Vc Vc' Ne. destruct (row_dec c Vc) as [O|Z].
      - rewrite <- after_chance, term_after by assumption. rewrite (delta_other c' c Ne). rewrite (rsum_ext _ _ (fun x => delta c' x * kernel c x)) by (intros; lra). rewrite sum_delta by exact Vc'. lra.
      - rewrite (closed_row c Vc Z). cbn. unfold kernel, reach. rewrite Z; [rewrite andb_false_r; reflexivity|]. rewrite Body. apply (spins_at_valid M N); assumption.
    Qed.
    Lemma term_balance : forall c c', valid_configuration M N d c -> valid_configuration M N d c' -> w c * chance (step (c, psi c)) c' = w c' * chance (step (c', psi c')) c.
    Proof.
      intros c c' Vc Vc'. destruct (ord_dec c c') as [->|Ne]; [reflexivity|]. rewrite !term_chance by (assumption || congruence). apply kernel_balance; assumption.
    Qed.
    Hypothesis Nzr : no_zero_row is_zero d op el.
    Lemma opened : forall c, valid_configuration M N d c -> open_row c.
    Proof. intros c Vc. apply Nzr. rewrite Body. apply (spins_at_valid M N); assumption. Qed.
    Lemma good_term : good step.
    Proof. intros [c v] [Vc E]. cbn in Vc, E. subst v. apply good_at; [exact Vc|apply opened; exact Vc]. Qed.
    Lemma adjoint_term : adjoint step step.
    Proof.
      intros f g.
      assert (Form : forall f g, rsum (map (fun c => w c * f c * after step g c) all) = rsum (map (fun c => rsum (map (fun c' => w c * kernel c c' * f c * g c') all)) all) + rsum (map (fun c => w c * f c * g c * (1 - rsum (map (kernel c) all))) all)).
      { clear f g. intros f g. rewrite <- rsum_plus. apply sum_ext. intros c Vc. rewrite term_after by (assumption || (apply opened; assumption)). rewrite (rsum_ext _ (fun c' => w c * kernel c c' * f c * g c') (fun c' => (w c * f c) * (kernel c c' * g c'))) by (intros; lra). rewrite rsum_scal. lra. }
      rewrite Form. rewrite (rsum_ext _ (fun c => w c * after step f c * g c) (fun c => w c * g c * after step f c)) by (intros; lra). rewrite Form. f_equal; [|apply rsum_ext; intros; lra].
      rewrite rsum_swap. apply sum_ext. intros c Vc. apply sum_ext. intros c' Vc'. rewrite (kernel_balance c' c Vc' Vc). lra.
    Qed.
    (** no move to a configuration of zero amplitude *)
    Lemma term_keeps : forall s, fine s -> is_zero (snd s) = false -> always (step s) (fun s' => fine s' /\ is_zero (snd s') = false).
    Proof.
      intros [c v] [Vc E] Z. cbn in Vc, E, Z. subst v. destruct (term_run c Vc (opened c Vc)) as [cs [P H]]. destruct cs as [|c0 cs0] eqn:Ecs.
      - rewrite H. split; [apply fine_here; exact Vc|exact Z].
      - rewrite <- Ecs in *. destruct H as [k [E H]]. rewrite E. cbn [always]. split; [rewrite Ecs; discriminate|]. intros i Hi. destruct (H i Hi) as [c' [k' [Ei [Ek [E1 E2]]]]]. rewrite Ek. cbn [always]. rewrite E1, E2.
        assert (Vc' : valid_configuration M N d c'). { apply nth_error_In in Ei. apply (Permutation_in _ P) in Ei. apply filter_In in Ei. apply in_valid, Ei. }
        split; [|intros _; split; [apply fine_here; exact Vc|exact Z]]. intros Hp. split; [apply fine_here; exact Vc'|]. cbn [snd]. destruct (is_zero (psi c')) eqn:Z'; [|reflexivity]. exfalso. unfold acceptance in Hp. rewrite Z, Z' in Hp. lra.
    Qed.
  End Term.

  (** ** sweeps *)
  Variables (hamiltonians : list (positions * operator V)) (sequence : list positions).
  Hypothesis Terms : forall ps, In ps sequence -> exists op, mfind ps hamiltonians = Some op /\ safe_term is_zero M N d ps op.
  Notation terms := (markov_terms is_zero psi over norm d hamiltonians).
  Definition one (ps : positions) (s : state) : rand state := rbind (Ret (at_or_throw (mfind ps hamiltonians))) (fun op => markov_term is_zero psi over norm d ps op s).
  Lemma one_facts : forall ps, In ps sequence -> good (one ps) /\ adjoint (one ps) (one ps) /\ forall s, fine s -> is_zero (snd s) = false -> always (one ps s) (fun s' => fine s' /\ is_zero (snd s') = false).
  Proof.
    intros ps H. destruct (Terms ps H) as [op [E [[ND [Ins [Body [el [Act Sy]]]]] Nz']]]. assert (Nz := Nz' el Act). clear Nz'.
    assert (X : forall s, one ps s = markov_term is_zero psi over norm d ps op s) by (intros s; unfold one; rewrite E; reflexivity). split; [|split].
    - intros s F. rewrite X. apply (good_term ps op el Act Body ND Ins Sy Nz). exact F.
    - intros f g. rewrite (rsum_ext _ _ (fun c => w c * f c * after (markov_term is_zero psi over norm d ps op) g c)) by (intros c _; unfold after; rewrite X; reflexivity).
      rewrite (adjoint_term ps op el Act Body ND Ins Sy Nz). apply rsum_ext. intros c _. unfold after. rewrite X. reflexivity.
    - intros s F Z. rewrite X. apply (term_keeps ps op el Act Body ND Ins Sy Nz); assumption.
  Qed.
  Lemma terms_cons : forall ps l, terms (ps :: l) = fun s => rbind (one ps s) (terms l).
  Proof. reflexivity. Qed.
  Lemma good_terms : forall l, (forall ps, In ps l -> In ps sequence) -> good (terms l).
  Proof.
    induction l as [|ps l IH]; intros H; [apply good_ret|]. rewrite terms_cons. apply good_bind; [apply one_facts, H; left; reflexivity|]. apply IH. intros q Hq. apply H. right. exact Hq.
  Qed.
  Lemma rbind_assoc_expect : forall A B C (m : rand A) (f : A -> rand B) (g : B -> rand C) h, expect (rbind (rbind m f) g) h = expect (rbind m (fun a => rbind (f a) g)) h.
  Proof. intros A B C m f g h. rewrite !expect_bind. induction m as [r|n k IH|p k IH]; cbn [rbind expect]; [destruct r; cbn; rewrite ?expect_bind; reflexivity| |rewrite !IH; reflexivity]. f_equal. apply rsum_ext. intros i _. apply IH. Qed.
  Lemma terms_app : forall l1 l2 s h, expect (terms (l1 ++ l2) s) h = expect (rbind (terms l1 s) (terms l2)) h.
  Proof.
    induction l1 as [|ps l1 IH]; intros l2 s h; [reflexivity|]. cbn [app]. rewrite !terms_cons. rewrite rbind_assoc_expect. rewrite !expect_bind.
    assert (X : forall m : rand state, expect m (fun a => expect (terms (l1 ++ l2) a) h) = expect m (fun a => expect (rbind (terms l1 a) (terms l2)) h)).
    { induction m as [r|n k IHm|p k IHm]; cbn [expect]; [destruct r; try reflexivity; apply IH| |rewrite !IHm; reflexivity]. f_equal. apply rsum_ext. intros i _. apply IHm. }
    apply X.
  Qed.
  Lemma adjoint_terms : forall l, (forall ps, In ps l -> In ps sequence) -> adjoint (terms l) (terms (rev l)).
  Proof.
    induction l as [|ps l IH]; intros H; [apply adjoint_ret|]. cbn [rev]. rewrite terms_cons. intros f g.
    assert (G : good (terms (rev l))) by (apply good_terms; intros q Hq; apply H; right; apply in_rev; exact Hq).
    destruct (one_facts ps (H ps (or_introl eq_refl))) as [Go [Ao _]].
    rewrite (adjoint_bind (one ps) (one ps) (terms l) (terms (rev l)) Go G Ao (IH (fun q Hq => H q (or_intror Hq))) f g).
    apply sum_ext. intros c Vc. f_equal. f_equal. unfold after. rewrite terms_app, !expect_bind. apply (expect_ext _ _ fine); [apply G, fine_here, Vc|]. intros s Fs. rewrite terms_cons, expect_bind.
    apply (expect_ext _ _ fine); [apply Go; exact Fs|]. intros s' _. reflexivity.
  Qed.
  Notation sweep := (markov_spin is_zero psi over norm d hamiltonians sequence).
  Lemma good_sweep : good sweep.
  Proof. apply good_bind; apply good_terms; intros ps H; [exact H|apply in_rev; exact H]. Qed.
  Lemma adjoint_sweep : adjoint sweep sweep.
  Proof.
    assert (Hr : forall ps, In ps (rev sequence) -> In ps sequence) by (intros ps H; apply in_rev; exact H).
    apply adjoint_bind; try (apply good_terms; auto); [apply adjoint_terms; auto|]. assert (A := adjoint_terms (rev sequence) Hr). rewrite rev_involutive in A. exact A.
  Qed.
  Notation run := (markov_sweeps is_zero psi over norm d hamiltonians sequence).
  Lemma good_sweeps : forall n, good (run n).
  Proof. induction n as [|n IH]; [apply good_ret|]. apply good_bind; [apply good_sweep|exact IH]. Qed.
  Lemma mean_sweeps : forall n g, rsum (map (fun c => w c * after (run n) g c) all) = rsum (map (fun c => w c * g c) all).
  Proof.
    induction n as [|n IH]; intros g; [reflexivity|].
    rewrite (sum_ext _ (fun c => w c * after sweep (after (run n) g) c)) by (intros c Vc; f_equal; apply (after_bind sweep (run n)); [apply good_sweep|exact Vc]).
    rewrite (adjoint_mean sweep sweep _ good_sweep adjoint_sweep). apply IH.
  Qed.
  Definition lively (s : state) : Prop := fine s /\ is_zero (snd s) = false.
  Lemma terms_keep : forall l, (forall ps, In ps l -> In ps sequence) -> forall s, lively s -> always (terms l s) lively.
  Proof.
    induction l as [|ps l IH]; intros H s [F Z]; [split; assumption|]. rewrite terms_cons. apply (always_bind _ _ _ _ lively); [apply one_facts; [apply H; left; reflexivity|exact F|exact Z]|]. intros s' L. apply IH; [|exact L]. intros q Hq. apply H. right. exact Hq.
  Qed.
  Lemma sweep_keeps : forall s, lively s -> always (sweep s) lively.
  Proof. intros s L. apply (always_bind _ _ _ _ lively); [apply terms_keep; [auto|exact L]|]. intros s' L'. apply terms_keep; [|exact L']. intros ps H. apply in_rev. exact H. Qed.

  (** ** the theorems *)
  Theorem term_detailed_balance : forall ps op c c', hopping_term is_zero M N d ps op -> valid_configuration M N d c -> valid_configuration M N d c' ->
    w c * chance (markov_term is_zero psi over norm d ps op (c, psi c)) c' = w c' * chance (markov_term is_zero psi over norm d ps op (c', psi c')) c.
  Proof.
    intros ps op c c' [ND [Ins [Body [el [Act Sy]]]]] Vc Vc'. apply (term_balance ps op el); assumption.
  Qed.
  Theorem sweep_detailed_balance : forall c c', valid_configuration M N d c -> valid_configuration M N d c' -> w c * chance (sweep (c, psi c)) c' = w c' * chance (sweep (c', psi c')) c.
  Proof. intros c c' Vc Vc'. apply adjoint_balance; [apply adjoint_sweep|exact Vc|exact Vc']. Qed.
  Theorem equilibrate_stationary : forall n x, valid_configuration M N d x -> rsum (map (fun c => w c * chance (equilibrate is_zero psi over norm d hamiltonians sequence n c) x) all) = w x.
  Proof.
    intros n x Vx. assert (Q := mean_sweeps n (delta x)). rewrite (rsum_ext _ (fun c => w c * delta x c) (fun c => delta x c * w c)) in Q by (intros; lra). rewrite sum_delta in Q by exact Vx. exact Q.
  Qed.
  Theorem equilibrate_always : forall n c, valid_configuration M N d c -> always (equilibrate is_zero psi over norm d hamiltonians sequence n c) (fun s => valid_configuration M N d (fst s) /\ snd s = psi (fst s)).
  Proof. intros n c Vc. apply (good_sweeps n). apply fine_here. exact Vc. Qed.

  (** ** sampling an observer *)
  Variables (times : V -> V -> V) (part : V -> R) (ps : positions) (op : operator V) (el : list Z -> V) (overlap : V -> V -> R).
  Hypothesis Act : acts_as d op el.
  Hypothesis Body : body op = length ps.
  Hypothesis ND : NoDup ps.
  Hypothesis Ins : forall p, In p ps -> inside M N p.
  Hypothesis Nzr : no_zero_row is_zero d op el.
  Hypothesis over_overlap : forall x y, is_zero y = false -> part (over x y) * overlap y y = overlap y x.
  Hypothesis zero_overlap : forall x y z, is_zero x = true -> overlap y (times x z) = 0.
  Hypothesis norm_overlap : forall x, norm x = overlap x x.
  Hypothesis overlap_zero : forall x y, is_zero x = true -> overlap x y = 0.
  Notation loop := (markov_loop is_zero psi over norm times part d hamiltonians sequence ps op).
  Notation observed := (observe is_zero psi over times part Rplus 0 d ps op).
  Definition local (c : configuration) : R := match observed c (psi c) with Ok v => value_of v | _ => 0 end.
  Lemma loop_always : forall n s r, lively s -> always (loop n s (Some r)) (fun v => v <> None).
  Proof.
    induction n as [|n IH]; intros s r L; [discriminate|]. cbn [markov_loop]. apply (always_bind _ _ _ _ lively); [apply sweep_keeps; exact L|]. intros [c v] [[Vc E] Z]. cbn in Vc, E, Z. subst v. cbn [fst snd].
    destruct (observe_value is_zero psi over times part M N d ps op el Hd Act Body ND Ins overlap over_overlap zero_overlap all All c Vc Nzr Z) as [v [Ev _]]. rewrite Ev. cbn [rbind]. apply IH. split; [apply fine_here; exact Vc|exact Z].
  Qed.
  Theorem markov_always : forall n c, valid_configuration M N d c -> is_zero (psi c) = false -> n <> O -> always (markov is_zero psi over norm times part d hamiltonians sequence ps op n c) (fun v => v <> None).
  Proof.
    intros n c Vc Z Hn. unfold markov. apply (always_bind _ _ _ _ (fun v => v <> None)); [apply loop_always; split; [apply fine_here; exact Vc|exact Z]|]. intros [r|] H; [|congruence]. destruct n; [congruence|]. cbn. discriminate.
  Qed.
  Lemma lively_sum : forall f g : configuration -> R, (forall c, valid_configuration M N d c -> is_zero (psi c) = false -> f c = g c) -> rsum (map (fun c => w c * f c) all) = rsum (map (fun c => w c * g c) all).
  Proof.
    intros f g H. apply sum_ext. intros c Vc. destruct (is_zero (psi c)) eqn:Z; [rewrite (proj1 (norm_zero _) Z); lra|]. rewrite H by assumption. reflexivity.
  Qed.
  Lemma loop_value : forall n c r, valid_configuration M N d c -> is_zero (psi c) = false ->
    expect (loop n (c, psi c) (Some r)) value_of = r + rsum (map (fun k => after (run k) local c) (seq 1 n)).
  Proof.
    induction n as [|n IH]; intros c r Vc Z; [cbn; lra|]. cbn [markov_loop]. rewrite expect_bind.
    assert (L : lively (c, psi c)) by (split; [apply fine_here; exact Vc|exact Z]).
    rewrite (expect_ext _ _ lively _ (fun s => 1 * (r + local (fst s)) + 1 * rsum (map (fun k => after (run k) local (fst s)) (seq 1 n))) (sweep_keeps _ L)).
    - rewrite (expect_linear _ _ (fun s => r + local (fst s)) (fun s => rsum (map (fun k => after (run k) local (fst s)) (seq 1 n)))).
      rewrite (expect_ext _ _ lively _ (fun s => 1 * r + 1 * local (fst s)) (sweep_keeps _ L)) by (intros; lra). rewrite (expect_linear _ _ (fun _ => r) (fun s => local (fst s))).
      rewrite (expect_const _ _ lively r (sweep_keeps _ L)).
      assert (Sum : forall l : list nat, expect (sweep (c, psi c)) (fun s => rsum (map (fun k => after (run k) local (fst s)) l)) = rsum (map (fun k => after (run (S k)) local c) l)).
      { induction l as [|k l IHl]; [apply (expect_const _ _ lively 0 (sweep_keeps _ L))|]. cbn [map]. rewrite rsum_cons, <- IHl.
        rewrite (expect_ext _ _ lively _ (fun s => 1 * after (run k) local (fst s) + 1 * rsum (map (fun k => after (run k) local (fst s)) l)) (sweep_keeps _ L)) by (intros; rewrite rsum_cons; lra).
        rewrite (expect_linear _ _ (fun s => after (run k) local (fst s))). rewrite !Rmult_1_l. f_equal. symmetry. apply (after_bind sweep (run k) local c); [apply good_sweep|exact Vc]. }
      rewrite Sum. replace (seq 1 (S n)) with (1%nat :: map S (seq 1 n)) by (cbn [seq]; rewrite seq_shift; reflexivity). cbn [map]. rewrite rsum_cons, map_map.
      assert (One : after (run 1) local c = expect (sweep (c, psi c)) (fun s => local (fst s))). { exact (after_bind sweep (run 0) local c good_sweep Vc). }
      rewrite One. lra.
    - intros [c' v] [[Vc' E] Z']. cbn in Vc', E, Z'. subst v. cbn [fst snd]. unfold local at 1.
      destruct (observe_value is_zero psi over times part M N d ps op el Hd Act Body ND Ins overlap over_overlap zero_overlap all All c' Vc' Nzr Z') as [v [Ev _]]. rewrite Ev. cbn [rbind value_of]. rewrite (IH c' (r + v) Vc' Z'). lra.
  Qed.
  Theorem markov_unbiased : forall n, n <> O -> 0 < rsum (map (fun c => w c) all) ->
    rsum (map (fun c => w c * expect (markov is_zero psi over norm times part d hamiltonians sequence ps op n c) value_of) all) / rsum (map (fun c => w c) all) = expectation M N ps el psi times overlap all.
  Proof.
    intros n Hn Pos. unfold expectation. rewrite (rsum_ext _ (fun c => overlap (psi c) (psi c)) (fun c => w c)) by (intros; symmetry; apply norm_overlap). f_equal.
    rewrite (lively_sum _ (fun c => / INR n * rsum (map (fun k => after (run k) local c) (seq 1 n)))).
    - rewrite (rsum_ext _ _ (fun c => / INR n * rsum (map (fun k => w c * after (run k) local c) (seq 1 n)))) by (intros; rewrite rsum_scal; lra). rewrite rsum_scal, rsum_swap.
      rewrite (rsum_ext _ _ (fun _ => rsum (map (fun c => w c * local c) all) * 1)) by (intros k _; rewrite mean_sweeps; lra). rewrite rsum_scal.
      assert (L : forall s, rsum (map (fun _ : nat => 1) (seq s n)) = INR n). { clear. induction n as [|n IHn]; intros s; [reflexivity|]. cbn [seq map]. rewrite rsum_cons, IHn, S_INR. lra. }
      rewrite L. replace (/ INR n * (rsum (map (fun c => w c * local c) all) * INR n)) with (rsum (map (fun c => w c * local c) all)) by (field; apply not_0_INR; exact Hn).
      apply sum_ext. intros c Vc. destruct (is_zero (psi c)) eqn:Z.
      + rewrite (proj1 (norm_zero _) Z), Rmult_0_l. symmetry. apply rsum_zero. intros c' _. destruct (agree_off M N ps c c'); [apply overlap_zero; exact Z|reflexivity].
      + destruct (observe_value is_zero psi over times part M N d ps op el Hd Act Body ND Ins overlap over_overlap zero_overlap all All c Vc Nzr Z) as [v [Ev Hv]]. unfold local. rewrite Ev. cbn [value_of]. rewrite norm_overlap, Rmult_comm. exact Hv.
    - intros c Vc Z. unfold markov. rewrite expect_bind.
      rewrite (expect_ext _ _ (fun v => v <> None) _ (fun v => / INR n * value_of v + 0 * 0)).
      + rewrite (expect_linear _ _ value_of (fun _ => 0)). rewrite loop_value by assumption. lra.
      + apply loop_always. split; [apply fine_here; exact Vc|exact Z].
      + intros [r|] H; [|congruence]. destruct n; [congruence|]. cbn [expect value_of]. unfold Rdiv. lra.
  Qed.
End Balance.
