(** Lemmas for C45, C55: the value of an observer. *)
From Coq Require Import List Bool Arith ZArith Lia Permutation Reals Lra.
From Verif Require Import Base.Outcome Base.SMap Model.Symmetry Model.Schedule Model.Lazy Model.Mpi Model.SimpleUpdate Model.Sampling.
From Verif Require Import Spec.Bonds Spec.Lattice Spec.Sampling Proof.SymmetryFacts Proof.ScheduleFacts Proof.SimpleUpdateFacts Proof.ErgodicFacts Proof.ElementFacts Proof.FlipFacts.
Import ListNotations.
Open Scope Z_scope.

(** ** Sums *)
Section Sums.
  Open Scope R_scope.
  Lemma rsum_nil : rsum [] = 0.
  Proof. reflexivity. Qed.
  Lemma rsum_cons : forall a l, rsum (a :: l) = a + rsum l.
  Proof. reflexivity. Qed.
  Lemma rsum_app : forall l l', rsum (l ++ l') = rsum l + rsum l'.
  Proof. induction l as [|a l IH]; intros l'; cbn [app]; rewrite ?rsum_nil, ?rsum_cons, ?IH; lra. Qed.
  Lemma rsum_perm : forall l l', Permutation l l' -> rsum l = rsum l'.
  Proof. intros l l' P. induction P; rewrite ?rsum_cons; lra. Qed.
  Lemma rsum_ext : forall A (f g : A -> R) l, (forall a, In a l -> f a = g a) -> rsum (map f l) = rsum (map g l).
  Proof. intros A f g l H. f_equal. apply map_ext_in. exact H. Qed.
  Lemma rsum_scal : forall A (f : A -> R) k l, rsum (map (fun a => k * f a) l) = k * rsum (map f l).
  Proof. intros A f k l. induction l as [|a l IH]; cbn [map]; rewrite ?rsum_nil, ?rsum_cons, ?IH; lra. Qed.
  Lemma rsum_plus : forall A (f g : A -> R) l, rsum (map (fun a => f a + g a) l) = rsum (map f l) + rsum (map g l).
  Proof. intros A f g l. induction l as [|a l IH]; cbn [map]; rewrite ?rsum_nil, ?rsum_cons, ?IH; lra. Qed.
  Lemma rsum_zero : forall A (f : A -> R) l, (forall a, In a l -> f a = 0) -> rsum (map f l) = 0.
  Proof. intros A f l. induction l as [|a l IH]; intros H; cbn [map]; [reflexivity|]. rewrite rsum_cons, IH, (H a); [lra|left; reflexivity|intros b Hb; apply H; right; exact Hb]. Qed.
  Lemma rsum_swap : forall A B (f : A -> B -> R) la lb, rsum (map (fun a => rsum (map (f a) lb)) la) = rsum (map (fun b => rsum (map (fun a => f a b) la)) lb).
  Proof.
    intros A B f la lb. induction la as [|a la IH].
    - cbn. rewrite rsum_zero; reflexivity.
    - cbn [map]. change (rsum (rsum (map (f a) lb) :: map (fun a0 => rsum (map (f a0) lb)) la)) with (rsum (map (f a) lb) + rsum (map (fun a0 => rsum (map (f a0) lb)) la)). rewrite IH, <- rsum_plus. apply rsum_ext. intros b _. reflexivity.
  Qed.
  Lemma rsum_filter : forall A (f : A -> R) (t : A -> bool) l, rsum (map (fun a => if t a then f a else 0) l) = rsum (map f (filter t l)).
  Proof. intros A f t l. induction l as [|a l IH]; cbn [map filter]; [reflexivity|]. rewrite rsum_cons, IH. destruct (t a); cbn [map]; rewrite ?rsum_cons; lra. Qed.
  Lemma rsum_one : forall A (dec : forall x y : A, {x = y} + {x <> y}) (f : A -> R) l a, NoDup l -> In a l -> (forall b, In b l -> b <> a -> f b = 0) -> rsum (map f l) = f a.
  Proof.
    intros A dec f l a ND. induction ND as [|b l Hb ND IH]; intros Ha H; [destruct Ha|]. cbn [map]. rewrite rsum_cons. destruct Ha as [->|Ha].
    - rewrite rsum_zero; [lra|]. intros c Hc. apply H; [right; exact Hc|]. intros ->. contradiction.
    - rewrite IH, (H b); [lra|left; reflexivity|intros ->; contradiction|exact Ha|]. intros c Hc. apply H. right. exact Hc.
  Qed.
  Lemma fold_left_rsum : forall A (f : A -> R) l a, fold_left (fun v x => v + f x) l a = a + rsum (map f l).
  Proof. intros A f l. induction l as [|x l IH]; intros a; cbn [fold_left map]; rewrite ?rsum_nil, ?rsum_cons, ?IH; lra. Qed.
End Sums.

Lemma agree_off_spec : forall M N ps c c', agree_off M N ps c c' = true <-> forall q, inside M N q -> ~ In q ps -> spin c q = spin c' q.
Proof.
  intros M N ps c c'. unfold agree_off. rewrite forallb_forall. split.
  - intros H q I Hq. apply in_cells in I. specialize (H q I). apply orb_prop in H. destruct H as [H|H]; [|apply Z.eqb_eq; exact H]. apply existsb_exists in H. destruct H as [x [Hx E]]. apply eqb_eq in E. subst x. contradiction.
  - intros H q I. apply in_cells in I. destruct (existsb (eqb q) ps) eqn:E; [reflexivity|]. cbn [orb]. apply Z.eqb_eq. apply H; [exact I|]. intros Hq. assert (X : existsb (eqb q) ps = true) by (apply existsb_exists; exists q; split; [exact Hq|apply eqb_refl]). congruence.
Qed.
Lemma agree_flipped : forall M N ps c c', rectangle M N c' -> (agree_off M N ps c c' = true <-> flipped M N c ps (spins_at c' ps) c').
Proof.
  intros M N ps c c' R. rewrite agree_off_spec. unfold flipped. split.
  - intros H. split; [exact R|]. split; [reflexivity|]. intros q I Hq. symmetry. apply H; assumption.
  - intros [_ [_ O]] q I Hq. symmetry. apply O; assumption.
Qed.

Section Observe.
  Context {V : Type}.
  Variables (is_zero : V -> bool) (amplitude : configuration -> V) (over times : V -> V -> V) (part : V -> R).
  Variables (M N d : Z) (ps : positions) (op : operator V) (el : list Z -> V).
  Hypothesis Hd : 0 < d.
  Hypothesis Act : acts_as d op el.
  Hypothesis Body : body op = length ps.
  Hypothesis ND : NoDup ps.
  Hypothesis Ins : forall p, In p ps -> inside M N p.
  Notation observe := (observe is_zero amplitude over times part Rplus 0%R).
  (** the fold over a row *)
  Lemma observe_row : forall c row v, rectangle M N c -> (forall outs x, In (outs, x) row -> length outs = length ps) -> is_zero (amplitude c) = false ->
    exists cs, Forall2 (fun oe c' => flipped M N c ps (fst oe) c') row cs /\
    foldM (fun (value : option R) (oe : list Z * V) =>
      bind (replacement ps (fst oe) []) (fun m =>
      bind (replaced amplitude c m (amplitude c)) (fun wss =>
      Ok (match value with Some value => if is_zero (amplitude c) then None else Some (Rplus value (part (over (times (snd oe) wss) (amplitude c)))) | None => None end)))) row (Some v)
    = Ok (Some (v + rsum (map (fun oc => part (over (times (snd (fst oc)) (amplitude (snd oc))) (amplitude c))) (combine row cs)))%R).
  Proof.
    intros c row. induction row as [|[outs x] row IH]; intros v R Len Nz.
    - exists []. split; [constructor|]. cbn. f_equal. f_equal. lra.
    - destruct (replaced_ok M N amplitude c ps outs ND Ins R (Len outs x (or_introl eq_refl))) as [m [c' [Em [F Er]]]].
      destruct (IH (v + part (over (times x (amplitude c')) (amplitude c)))%R R (fun o y H => Len o y (or_intror H)) Nz) as [cs [Fs E]].
      exists (c' :: cs). split; [constructor; assumption|]. cbn [foldM fst snd]. rewrite Em. cbn [bind]. rewrite Er. cbn [bind]. rewrite Nz in *. rewrite E. f_equal. f_equal. cbn. unfold rsum. lra.
  Qed.
  Lemma observe_succeeds : forall c, valid_configuration M N d c -> no_zero_row is_zero d op el -> exists value, observe d ps op c (amplitude c) = Ok value.
  Proof.
    intros c Vc Nz. unfold Sampling.observe. rewrite (current_ok M N c ps Ins (proj1 Vc)). cbn [bind]. destruct (find_element_lists is_zero d op el Hd Act) as [m [Em Lm]]. rewrite Em. cbn [bind].
    assert (Sc := spins_at_valid M N d c ps Vc Ins). rewrite <- Body in Sc. destruct (Lm _ Sc) as [L1 L2]. destruct (mfind (spins_at c ps) m) as [row|] eqn:Er.
    - cbn [at_or_throw bind]. destruct (L2 row eq_refl) as [_ Rw]. clear L1 L2 Er.
      assert (Len : forall outs x, In (outs, x) row -> length outs = length ps) by (intros outs x H; apply Rw in H; rewrite <- Body; apply H). clear Rw. generalize (Some 0%R) as v0. revert Len. induction row as [|[outs x] row IH]; intros Len v0; [eexists; reflexivity|].
      destruct (replaced_ok M N amplitude c ps outs ND Ins (proj1 Vc) (Len outs x (or_introl eq_refl))) as [m' [c' [Em' [F Er']]]].
      cbn [foldM fst snd]. rewrite Em'. cbn [bind]. rewrite Er'. cbn [bind]. apply IH. intros o y H. apply (Len o y). right. exact H.
    - exfalso. destruct (Nz _ Sc) as [outs [Ho Hz]]. rewrite (proj1 L1 eq_refl outs Ho) in Hz. discriminate.
  Qed.
  (** a configuration whose row of the operator is zero *)
  Lemma observe_zero_row : forall c ws, valid_configuration M N d c -> (forall outs, spins_of d (body op) outs -> is_zero (el (spins_at c ps ++ outs)) = true) -> observe d ps op c ws = Throw OutOfRange.
  Proof.
    intros c ws Vc Z. unfold Sampling.observe. rewrite (current_ok M N c ps Ins (proj1 Vc)). cbn [bind]. destruct (find_element_lists is_zero d op el Hd Act) as [m [Em Lm]]. rewrite Em. cbn [bind].
    assert (Sc := spins_at_valid M N d c ps Vc Ins). rewrite <- Body in Sc. rewrite (proj2 (proj1 (Lm _ Sc)) Z). reflexivity.
  Qed.
  Variable overlap : V -> V -> R.
  Hypothesis over_overlap : forall x y, is_zero y = false -> (part (over x y) * overlap y y = overlap y x)%R.
  Hypothesis zero_overlap : forall x y z, is_zero x = true -> overlap y (times x z) = 0%R.
  Variable all : list configuration.
  Hypothesis All : enumerates M N d all.
  Lemma observe_value : forall c, valid_configuration M N d c -> no_zero_row is_zero d op el -> is_zero (amplitude c) = false ->
    exists v, observe d ps op c (amplitude c) = Ok (Some v) /\
      (v * overlap (amplitude c) (amplitude c) = rsum (map (fun c' => if agree_off M N ps c c' then overlap (amplitude c) (times (el (spins_at c ps ++ spins_at c' ps)) (amplitude c')) else 0) all))%R.
  Proof.
    intros c Vc Nz Ac. unfold Sampling.observe. rewrite (current_ok M N c ps Ins (proj1 Vc)). cbn [bind]. destruct (find_element_lists is_zero d op el Hd Act) as [m [Em Lm]]. rewrite Em. cbn [bind].
    assert (Sc := spins_at_valid M N d c ps Vc Ins). rewrite <- Body in Sc. destruct (Lm _ Sc) as [L1 L2]. destruct (mfind (spins_at c ps) m) as [row|] eqn:Er.
    2: { exfalso. destruct (Nz _ Sc) as [outs [Ho Hz]]. rewrite (proj1 L1 eq_refl outs Ho) in Hz. discriminate. }
    cbn [at_or_throw bind]. destruct (L2 row eq_refl) as [NDr Rw]. clear L1 L2 Er.
    assert (Len : forall outs x, In (outs, x) row -> length outs = length ps) by (intros outs x H; apply Rw in H; rewrite <- Body; apply H).
    destruct (observe_row c row 0%R (proj1 Vc) Len Ac) as [cs [Fs E]]. eexists. split; [exact E|]. clear E.
    rewrite Rplus_0_l, Rmult_comm, <- rsum_scal, rsum_filter.
    set (f := fun c' => overlap (amplitude c) (times (el (spins_at c ps ++ spins_at c' ps)) (amplitude c'))).
    (* the sum over the row is the sum over the configurations reached *)
    transitivity (rsum (map f cs)).
    - assert (Rw' : forall outs x, In (outs, x) row -> x = el (spins_at c ps ++ outs)) by (intros outs x H; apply Rw in H; tauto).
      revert Rw' Fs. generalize cs as cs0. clear - over_overlap Ac. revert row. induction row as [|[outs x] row IH]; intros cs0 Rw' Fs.
      + inversion Fs. reflexivity.
      + inversion Fs as [|? c' ? cs' F Fs']; subst. cbn. unfold rsum in IH. rewrite <- (IH cs' (fun o y H => Rw' o y (or_intror H)) Fs'). f_equal. unfold f. cbn [fst snd] in *.
        rewrite Rmult_comm, over_overlap by exact Ac. rewrite (Rw' outs x (or_introl eq_refl)). destruct F as [_ [F _]]. rewrite F. reflexivity.
    - set (nz := fun c' => negb (is_zero (el (spins_at c ps ++ spins_at c' ps)))).
      transitivity (rsum (map f (filter nz (filter (agree_off M N ps c) all)))).
      + apply rsum_perm, Permutation_map. apply NoDup_Permutation.
        * (* different spins, different configurations *)
          assert (Q : forall c', In c' cs -> exists x, In (spins_at c' ps, x) row).
          { clear - Fs. revert row Fs. induction cs as [|c0 cs IH]; intros row Fs c' H; [destruct H|]. inversion Fs as [|[o x] ? row' ? F Fs']; subst. destruct H as [<-|H].
            - exists x. left. destruct F as [_ [F _]]. cbn in F. rewrite F. reflexivity.
            - destruct (IH row' Fs' c' H) as [x' Hx]. exists x'. right. exact Hx. }
          revert NDr Q. clear - Fs. revert row Fs. induction cs as [|c0 cs IH]; intros row Fs NDr Q; [constructor|]. inversion Fs as [|[o x] row0 row' ? F Fs']; subst. cbn [map fst] in NDr. inversion NDr as [|? ? Ho NDr']; subst.
          assert (QQ : forall c', In c' cs -> In (spins_at c' ps) (map fst row')).
          { clear - Fs'. revert row' Fs'. induction cs as [|c1 cs IH]; intros row' Fs' c' H; [destruct H|]. inversion Fs' as [|[o x] ? row'' ? F Fs'']; subst. destruct H as [<-|H].
            - left. destruct F as [_ [F _]]. cbn in F |- *. congruence.
            - right. apply (IH row'' Fs'' c' H). }
          constructor.
          -- intros H. apply QQ in H. destruct F as [_ [F _]]. cbn in F. rewrite F in H. contradiction.
          -- apply (IH row' Fs' NDr'). intros c' H. apply QQ in H. apply in_map_iff in H. destruct H as [[o' x'] [E H]]. cbn in E. subst o'. exists x'. exact H.
        * apply NoDup_filter, NoDup_filter, All.
        * intros c'. rewrite !filter_In. split.
          -- intros H. assert (Q : exists outs x, In (outs, x) row /\ flipped M N c ps outs c').
             { clear - Fs H. revert row Fs. induction cs as [|c0 cs IH]; intros row Fs; [destruct H|]. inversion Fs as [|[o x] ? row' ? F Fs']; subst. destruct H as [<-|H].
               - exists o, x. split; [left; reflexivity|exact F].
               - destruct (IH H row' Fs') as [o' [x' [H1 H2]]]. exists o', x'. split; [right; exact H1|exact H2]. }
             destruct Q as [outs [x [Hr F]]]. apply Rw in Hr. destruct Hr as [Ho [Ex [Zx _]]]. assert (Vc' := flipped_valid M N d c ps outs c' Vc F (proj2 Ho)).
             split; [split; [apply All; exact Vc'|apply agree_flipped; [apply Vc'|]; destruct F as [F1 [F2 F3]]; split; [exact F1|split; [reflexivity|exact F3]]]|].
             unfold nz. destruct F as [_ [F _]]. rewrite F, <- Ex, Zx. reflexivity.
          -- intros [[Ha Hg] Hn]. apply All in Ha. apply agree_flipped in Hg; [|apply Ha]. unfold nz in Hn. apply negb_true_iff in Hn.
             assert (So := spins_at_valid M N d c' ps Ha Ins). rewrite <- Body in So. assert (Hr := proj2 (Rw (spins_at c' ps) _) (conj So (conj eq_refl (conj Hn I)))).
             clear - Fs Hr Hg. revert row Fs Hr. induction cs as [|c0 cs IH]; intros row Fs Hr; inversion Fs as [|[o x] ? row' ? F Fs']; subst; [destruct Hr|]. destruct Hr as [Hr|Hr].
             ++ left. injection Hr as -> _. apply (flipped_unique M N c ps (spins_at c' ps)); assumption.
             ++ right. apply (IH row' Fs' Hr).
      + rewrite <- (rsum_filter _ f nz). apply rsum_ext. intros c' _. unfold nz. destruct (is_zero (el (spins_at c ps ++ spins_at c' ps))) eqn:Ez; [|reflexivity]. cbn [negb]. unfold f. rewrite zero_overlap by exact Ez. reflexivity.
  Qed.

  Variable weight : V -> R.
  Hypothesis weight_overlap : forall x, weight x = overlap x x.
  Theorem ergodic_expectation : forall c0, 0 <= M -> 0 <= N -> rectangle M N c0 -> no_zero_row is_zero d op el -> (forall c, valid_configuration M N d c -> is_zero (amplitude c) = false) ->
    ergodic is_zero amplitude over times part weight Rplus Rmult Rdiv 0%R M N d ps op c0 = Ok (Some (expectation M N ps el amplitude times overlap all)).
  Proof.
    intros c0 HM HN R0 Nz Am.
    (* the configurations visited *)
    set (conf := fun step => match ergodic_spin M N d step c0 with Ok c => c | _ => c0 end).
    assert (Conf : forall step c, rectangle M N c -> ergodic_spin M N d step c = Ok (conf step) /\ valid_configuration M N d (conf step)).
    { intros step c R. destruct (ergodic_valid M N d step c0 Hd R0) as [c' [E Vc]]. rewrite (ergodic_forgets M N d step c c0 Hd R R0). unfold conf. rewrite E. split; [reflexivity|exact Vc]. }
    set (num := fun c => rsum (map (fun c' => if agree_off M N ps c c' then overlap (amplitude c) (times (el (spins_at c ps ++ spins_at c' ps)) (amplitude c')) else 0%R) all)).
    assert (Loop : forall steps c r n, rectangle M N c -> exists c', rectangle M N c' /\
      foldM (ergodic_step is_zero amplitude over times part weight Rplus Rmult 0%R M N d ps op) steps (c, Some r, n) =
      Ok (c', Some (r + rsum (map (fun step => num (conf step)) steps))%R, (n + rsum (map (fun step => overlap (amplitude (conf step)) (amplitude (conf step))) steps))%R)).
    { induction steps as [|step steps IH]; intros c r n R.
      - exists c. split; [exact R|]. cbn. rewrite !Rplus_0_r. reflexivity.
      - destruct (Conf step c R) as [Ec Vc]. destruct (observe_value (conf step) Vc Nz (Am _ Vc)) as [v [Ev Hv]].
        destruct (IH (conf step) (r + v * weight (amplitude (conf step)))%R (n + weight (amplitude (conf step)))%R (proj1 Vc)) as [c' [R' E]].
        exists c'. split; [exact R'|]. cbn [foldM].
        assert (E1 : ergodic_step is_zero amplitude over times part weight Rplus Rmult 0%R M N d ps op (c, Some r, n) step = Ok (conf step, Some (r + v * weight (amplitude (conf step)))%R, (n + weight (amplitude (conf step)))%R)) by (unfold ergodic_step; rewrite Ec; cbn [bind]; rewrite Ev; reflexivity).
        rewrite E1. cbn [bind]. etransitivity; [exact E|]. rewrite weight_overlap, Hv. cbn [map]. rewrite !rsum_cons, !Rplus_assoc. reflexivity. }
    unfold ergodic. destruct (Loop (upto (d ^ (M * N))) c0 0%R 0%R R0) as [c' [_ E]]. etransitivity; [apply (f_equal2 bind); [exact E|reflexivity]|]. cbn [bind]. f_equal. f_equal. clear E. unfold expectation. rewrite !Rplus_0_l.
    assert (P : Permutation (map conf (upto (d ^ (M * N)))) all).
    { apply NoDup_Permutation.
      - assert (Q : forall k, In k (upto (d ^ (M * N))) -> 0 <= k < d ^ (M * N)) by (intros k Hk; apply in_upto; exact Hk). revert Q. assert (NDu := nodup_upto (d ^ (M * N))). induction NDu as [|k l Hk NDu IH]; intros Q; [constructor|]. cbn. constructor.
        + rewrite in_map_iff. intros [k' [Ek Hk']]. assert (k' = k); [|congruence]. apply (ergodic_injective M N d k' k c0 c0 (conf k)); try assumption; [apply Q; right; exact Hk'|apply Q; left; reflexivity| |apply Conf; exact R0]. rewrite <- Ek. apply Conf. exact R0.
        + apply IH. intros k' H'. apply Q. right. exact H'.
      - apply All.
      - intros c. rewrite in_map_iff. split.
        + intros [k [<- _]]. apply All. apply (Conf k c0 R0).
        + intros H. apply All in H. destruct (ergodic_surjective M N d c c0 HM HN H R0 Hd) as [k [Bk Ek]]. exists k. split; [|apply in_upto; exact Bk]. unfold conf. rewrite Ek. reflexivity. }
    rewrite <- (map_map conf num), <- (map_map conf (fun c => overlap (amplitude c) (amplitude c))).
    rewrite (rsum_perm _ _ (Permutation_map num P)), (rsum_perm _ _ (Permutation_map (fun c => overlap (amplitude c) (amplitude c)) P)). reflexivity.
  Qed.
End Observe.
