(** Every statement acts on the tensor it names and on no other. *)
From Coq Require Import String List Bool Arith Lia.
From Verif Require Import Base.Outcome Base.SMap Model.Symmetry Model.Edge Model.Core Model.EdgeOperator
  Model.Elementwise Model.Cow Spec.Copies Proof.SymmetryFacts Proof.CowFacts.
Import ListNotations.

Section CowStep.
  Context {S R : Type} {SS : Sym S} {SL : SymLaws S} {RR : Scalar R}.
  Variable E : @env R.
  Notation state := (@state S R).
  Notation stmt := (@stmt S R).
  Implicit Types st : state.

  (** ** Places of elements and the access functions *)
  Lemma update_some : forall (b : list R) i v, (exists b', update b i v = Some b') <-> nth_error b i <> None.
  Proof.
    induction b as [|a b IH]; intros [|i] v; simpl; split; try congruence; try (intros [b' H]; discriminate).
    - intros _. eauto.
    - intros [b' H]. apply IH with v. destruct (update b i v) as [b''|]; [eauto|discriminate].
    - intro H. apply (IH i v) in H as [b' ->]. eauto.
  Qed.

  Definition place (c : core S R) (so : list S * nat) : list S :=
    if is_nosym then match c_blocks c with kb :: _ => fst kb | [] => fst so end else fst so.
  Lemma find_place : forall (c : core S R) so b, find_block c (fst so) = Ok b -> mfind (place c so) (c_blocks c) = Some b.
  Proof.
    intros c so b H. unfold find_block in H. unfold place. destruct is_nosym.
    - destruct (c_blocks c) as [|[k d] l]; [discriminate|]. injection H as ->. cbn [mfind fst]. now rewrite eqb_refl.
    - destruct (mfind (fst so) (c_blocks c)); [now injection H as ->|discriminate].
  Qed.

  Lemma set_at_places : forall names (c : core S R) pos v,
    set_at (mkTensor names c) pos v =
    bind (bind (locate names c pos) (fun ko => poke c (fst ko) (snd ko) v)) (fun c' => Ok (mkTensor names c')).
  Proof.
    intros names c pos v. unfold set_at, locate. cbn [t_names t_core t_blocks t_edges].
    destruct (get_block_and_offset pos names c) as [so|e| |]; try reflexivity. cbn [bind].
    destruct (find_block c (fst so)) as [b|e| |] eqn:Ef; try reflexivity. cbn [bind].
    apply find_place in Ef. unfold poke. fold (place c so).
    change (t_blocks (mkTensor names c)) with (c_blocks c).
    destruct (update b (snd so) v) as [b'|] eqn:Eu.
    - assert (Hn : nth_error b (snd so) <> None) by (apply (update_some b (snd so) v); eauto).
      destruct (nth_error b (snd so)) as [w|]; [|congruence]. cbn [get_or_ub bind fst snd]. rewrite Ef. cbn [get_or_ub bind].
      rewrite Eu. reflexivity.
    - destruct (nth_error b (snd so)) as [w|] eqn:En; [|reflexivity]. cbn [get_or_ub bind fst snd]. rewrite Ef. cbn [get_or_ub bind].
      rewrite Eu. reflexivity.
  Qed.
  Lemma const_at_places : forall names (c : core S R) pos,
    const_at (mkTensor names c) pos = bind (locate names c pos) (fun ko => peek c (fst ko) (snd ko)).
  Proof.
    intros names c pos. unfold const_at, locate. cbn [t_names t_core].
    destruct (get_block_and_offset pos names c) as [so|e| |]; try reflexivity. cbn [bind].
    destruct (find_block c (fst so)) as [b|e| |] eqn:Ef; try reflexivity. cbn [bind].
    apply find_place in Ef. unfold peek. fold (place c so).
    destruct (nth_error b (snd so)) as [w|] eqn:En; [|reflexivity]. cbn [get_or_ub bind fst snd]. rewrite Ef. cbn [get_or_ub bind].
    rewrite En. reflexivity.
  Qed.

  Lemma fetch_cell : forall st a, fetch st a = get_or_ub (cell st a).
  Proof. reflexivity. Qed.

  (** ** In-place operations *)
  Definition outcome st (r : res (nat -> option (tensor S R))) (m : res (state * option exn)) : Prop :=
    match r with
    | Ok f => exists st', m = Ok (st', None) /\ inv [] st' /\ forall y, read st' y = f y
    | Throw e => exists st', m = Ok (st', Some e) /\ inv [] st' /\ forall y, read st' y = read st y
    | UB => m = UB
    | OutOfFuel => m = OutOfFuel
    end.

  Lemma mutate_outcome : forall st x f g, inv [] st ->
    (forall t, g t = bind (f (t_names t) (t_core t)) (fun c => Ok (mkTensor (t_names t) c))) ->
    outcome st (on (read st) x g) (mutate st x f).
  Proof.
    intros st x f g I Hg. unfold on, mutate. destruct (read st x) as [t|] eqn:Ex.
    - destruct (unshare_ok st x t I Ex) as [st1 [h [-> [I1 [Hv [Hn [Hc [Hr [Hu _]]]]]]]]].
      cbn [get_or_ub bind]. rewrite fetch_cell, Hc, Hg, Hn. cbn [get_or_ub bind].
      destruct (f (t_names t) (t_core t)) as [c|e| |]; cbn [bind settle outcome]; auto.
      + eexists. split; [reflexivity|]. split; [now apply overwrite_inv|]. intro y.
        rewrite (overwrite_read st1 x h c y Hv) by (auto; congruence). unfold upd. rewrite Hn.
        destruct (Nat.eqb y x); auto.
      + eexists. split; [reflexivity|]. auto.
    - rewrite (unshare_ub st x I Ex). reflexivity.
  Qed.

  Lemma fresh_outcome : forall st x m, inv [] st ->
    outcome st (bind m (fun t => Ok (upd (read st) x (Some t)))) (settle st m (fun t => Ok (store_fresh st x t, None))).
  Proof.
    intros st x m I. destruct m as [t|e| |]; cbn [bind settle outcome]; auto.
    - eexists. split; [reflexivity|]. split; [now apply store_fresh_inv|]. intro y. now rewrite store_fresh_read.
    - eexists. split; [reflexivity|]. auto.
  Qed.

  Lemma read_handle : forall st y h, inv [] st -> mfind y (st_vars st) = Some h ->
    exists c, cell st (h_core h) = Some c /\ read st y = Some (mkTensor (h_names h) c) /\ mfind (h_core h) (st_heap st) <> None.
  Proof.
    intros st y h I H. destruct (var_alive _ _ _ _ I H) as [n [c Em]]. exists c.
    assert (Ec : cell st (h_core h) = Some c) by (unfold cell; now rewrite Em).
    rewrite read_cell, H, Ec, Em. repeat split; auto. discriminate.
  Qed.
  Lemma read_empty : forall st y, mfind y (st_vars st) = None -> read st y = None.
  Proof. intros st y H. now rewrite read_cell, H. Qed.

  Lemma inplace_blocks_ok : forall op (b2 bs : list (list S * list R)),
    match mapM (fun kb => bind (at_or_throw (mfind (fst kb) b2)) (fun b =>
                          bind (loop_ab op (snd kb) b (length (snd kb))) (fun d => Ok (fst kb, d)))) bs with
    | Ok r => inplace_blocks op b2 bs = Ok (r, None)
    | Throw e => e = OutOfRange /\ exists r, inplace_blocks op b2 bs = Ok (r, Some e)
    | UB => inplace_blocks op b2 bs = UB
    | OutOfFuel => inplace_blocks op b2 bs = OutOfFuel
    end.
  Proof.
    intros op b2. induction bs as [|[k b] bs IH]; [reflexivity|]. cbn [mapM inplace_blocks fst snd].
    destruct (mfind k b2) as [d|]; cbn [at_or_throw bind]; [|split; eauto].
    assert (Hl : forall e, loop_ab op b d (length b) <> Throw e).
    { intro e. unfold loop_ab. generalize (seq 0 (length b)). induction l as [|j l IHl]; [discriminate|]. cbn [mapM].
      destruct (nth_error b j); cbn [get_or_ub bind]; [|discriminate].
      destruct (nth_error d j); cbn [get_or_ub bind]; [|discriminate].
      intro H. apply IHl. destruct (mapM _ l) as [x|x| |]; cbn [bind] in *; congruence. }
    destruct (loop_ab op b d (length b)) as [r|e| |]; cbn [bind]; auto; [|elim (Hl e); reflexivity].
    destruct (mapM _ bs) as [rs|e| |]; cbn [bind].
    - rewrite IH. reflexivity.
    - destruct IH as [-> [rs ->]]. cbn [bind fst snd]. eauto.
    - rewrite IH. reflexivity.
    - rewrite IH. reflexivity.
  Qed.

  (** the same, but an exception of the second kind may leave the changed tensor half done *)
  Definition outcome_but st (x : nat) (r : res (nat -> option (tensor S R))) (m : res (state * option exn)) : Prop :=
    match r with
    | Throw e => exists st', m = Ok (st', Some e) /\ inv [] st' /\
        (forall y, y <> x \/ e <> OutOfRange -> read st' y = read st y)
    | _ => outcome st r m
    end.

  Lemma names_eqb_refl : forall l, names_eqb l l = true.
  Proof.
    intro l. unfold names_eqb. rewrite Nat.eqb_refl. simpl. induction l as [|a l IH]; simpl; auto. now rewrite Nat.eqb_refl.
  Qed.

  Lemma tensor_outcome : forall st x op y, inv [] st -> x <> y ->
    outcome_but st x (own E (read st) (STensor x op y)) (step E st (STensor x op y)).
  Proof.
    intros st x op y I N. cbn [own step]. destruct (read st x) as [t|] eqn:Ex.
    2:{ rewrite (unshare_ub st x I Ex). reflexivity. }
    destruct (unshare_ok st x t I Ex) as [st1 [h [-> [I1 [Hv [Hn [Hc [Hr [Hu Ho]]]]]]]]].
    cbn [get_or_ub bind]. destruct (mfind y (st_vars st1)) as [hy|] eqn:Ey.
    2:{ apply read_empty in Ey. rewrite Hr in Ey. rewrite Ey. reflexivity. }
    destruct (read_handle st1 y hy I1 Ey) as [cy [Ecy [Ery _]]]. rewrite Hr in Ery. rewrite Ery.
    cbn [get_or_ub bind]. rewrite !fetch_cell, Ecy, Hc. cbn [get_or_ub bind]. rewrite Hn.
    assert (Hd : Nat.eqb (h_core h) (h_core hy) = false).
    { apply Nat.eqb_neq. intro Heq. apply N. symmetry. apply (Hu y hy); auto. }
    rewrite Hd. unfold scalar_inplace.
    destruct (aligned E (t_names t) (mkTensor (h_names hy) cy)) as [t2|e| |]; cbn [bind settle outcome_but outcome]; auto.
    2:{ eexists. split; [reflexivity|]. auto. }
    change (c_edges (t_core t)) with (t_edges t). destruct (edges_eqb (t_edges t) (t_edges t2)); cbn [negb].
    2:{ eexists. split; [reflexivity|]. auto. }
    cbn [andb]. pose proof (inplace_blocks_ok op (t_blocks t2) (t_blocks t)) as HB. unfold t_blocks in *.
    destruct (mapM _ _) as [r|e| |] in HB |- *; cbn [bind outcome_but outcome].
    - rewrite HB. cbn [bind fst snd]. eexists. split; [reflexivity|]. split; [now apply overwrite_inv|]. intro z.
      rewrite (overwrite_read st1 x h _ z Hv) by (auto; congruence). unfold upd. rewrite Hn. destruct (Nat.eqb z x); auto.
    - destruct HB as [He [r HB]]. rewrite HB. cbn [bind fst snd]. eexists. split; [reflexivity|].
      split; [now apply overwrite_inv|]. intros z [Hz|Hz]; [|congruence].
      rewrite (overwrite_read st1 x h _ z Hv) by (auto; congruence). apply Nat.eqb_neq in Hz. rewrite Hz. auto.
    - rewrite HB. reflexivity.
    - rewrite HB. reflexivity.
  Qed.

  Lemma locate_peek : forall names (c : core S R) pos ko, locate names c pos = Ok ko -> exists v, peek c (fst ko) (snd ko) = Ok v.
  Proof.
    intros names c pos ko H. unfold locate in H.
    destruct (get_block_and_offset pos names c) as [so|e| |]; try discriminate. cbn [bind] in H.
    destruct (find_block c (fst so)) as [b|e| |] eqn:Ef; try discriminate. cbn [bind] in H.
    destruct (nth_error b (snd so)) as [w|] eqn:En; [|discriminate]. cbn [get_or_ub bind] in H. injection H as <-.
    apply find_place in Ef. unfold peek. cbn [fst snd]. fold (place c so). rewrite Ef. cbn [get_or_ub bind]. rewrite En.
    eexists. reflexivity.
  Qed.

  Lemma number_at_outcome : forall st x op y pos, inv [] st -> x <> y ->
    outcome st (own E (read st) (SNumberAt x op y pos)) (step E st (SNumberAt x op y pos)).
  Proof.
    intros st x op y pos I N. cbn [own step]. destruct (mfind y (st_vars st)) as [hy|] eqn:Ey.
    2:{ rewrite (read_empty st y Ey). reflexivity. }
    destruct (read_handle st y hy I Ey) as [cy [Ecy [Ery _]]]. rewrite Ery. cbn [get_or_ub bind].
    rewrite fetch_cell, Ecy. cbn [get_or_ub bind]. rewrite const_at_places.
    destruct (locate (h_names hy) cy pos) as [ko|e| |] eqn:El; cbn [bind settle outcome]; auto.
    2:{ eexists. split; [reflexivity|]. auto. }
    destruct (locate_peek _ _ _ _ El) as [v Ev]. rewrite Ev. cbn [bind]. unfold on.
    destruct (read st x) as [t|] eqn:Ex.
    2:{ rewrite (unshare_ub st x I Ex). reflexivity. }
    destruct (unshare_ok st x t I Ex) as [st1 [h [-> [I1 [Hv [Hn [Hc [Hr [Hu Ho]]]]]]]]]. cbn [get_or_ub bind].
    assert (Ey1 : mfind y (st_vars st1) = Some hy) by (rewrite Ho; congruence).
    assert (Hd : Nat.eqb (h_core h) (h_core hy) = false).
    { apply Nat.eqb_neq. intro Heq. apply N. symmetry. apply (Hu y hy); auto. }
    rewrite Hd. destruct (read_handle st1 y hy I1 Ey1) as [cy1 [Ecy1 [Ery1 _]]].
    rewrite Hr, Ery in Ery1. injection Ery1 as <-.
    rewrite !fetch_cell, Ecy1, Hc. cbn [get_or_ub bind]. rewrite Ev. cbn [bind outcome].
    eexists. split; [reflexivity|]. split; [now apply overwrite_inv|]. intro z.
    rewrite (overwrite_read st1 x h _ z Hv) by (auto; congruence). unfold upd. rewrite Hn.
    destruct (Nat.eqb z x); auto.
  Qed.

  Lemma with_ref_inv : forall st x h r k o, inv [] st -> mfind x (st_vars st) = Some h ->
    inv [] (mkState (st_heap st) (st_vars st) (mset r (h_core h, k, o) (st_refs st)) (st_next st)).
  Proof.
    intros st x h r k o I Hx. destruct (var_alive _ _ _ _ I Hx) as [n [c Em]].
    destruct I as [I1 I2 I3 I4 I5 I6]. constructor; cbn [st_heap st_vars st_refs st_next]; auto.
    intros r' l Hl. destruct (Nat.eq_dec r' r) as [->|Nr].
    - rewrite mfind_mset_same in Hl. injection Hl as <-. simpl. apply I5. congruence.
    - rewrite mfind_mset_other in Hl by assumption. eauto.
  Qed.

  Lemma ref_outcome : forall st r x pos, inv [] st ->
    outcome st (own E (read st) (SRef r x pos)) (step E st (SRef r x pos)).
  Proof.
    intros st r x pos I. cbn [own step]. destruct (read st x) as [t|] eqn:Ex.
    2:{ rewrite (unshare_ub st x I Ex). reflexivity. }
    destruct (unshare_ok st x t I Ex) as [st1 [h [-> [I1 [Hv [Hn [Hc [Hr [Hu Ho]]]]]]]]]. cbn [get_or_ub bind].
    rewrite fetch_cell, Hc. cbn [get_or_ub bind]. rewrite Hn. destruct t as [names c]. cbn [t_names t_core] in *.
    rewrite const_at_places. destruct (locate names c pos) as [ko|e| |] eqn:El; cbn [bind settle outcome]; auto.
    2:{ eexists. split; [reflexivity|]. auto. }
    destruct (locate_peek _ _ _ _ El) as [v Ev]. rewrite Ev. cbn [bind outcome].
    eexists. split; [reflexivity|]. split; [now apply (with_ref_inv st1 x h)|]. intro z. rewrite <- Hr. reflexivity.
  Qed.

  Lemma bind_ext : forall A B (m : res A) (f g : A -> res B), (forall a, f a = g a) -> bind m f = bind m g.
  Proof. intros A B m f g H. destruct m; cbn; auto. Qed.
  Lemma mapM_read : forall st ys, mapM (read_or_ub st) ys = mapM (fun y => get_or_ub (read st y)) ys.
  Proof. reflexivity. Qed.
  Lemma no_exn : forall st ys e, mapM (read_or_ub st) ys <> Throw e.
  Proof.
    intros st ys e. induction ys as [|y ys IH]; [discriminate|]. cbn [mapM]. unfold read_or_ub at 1.
    destruct (read st y); cbn [get_or_ub bind]; [|discriminate].
    destruct (mapM (read_or_ub st) ys); cbn [bind]; congruence.
  Qed.

  (** ** The main step: a statement does what it would do to tensors that are not shared *)
  Theorem step_own : forall st s, inv [] st -> direct s = true -> no_self s = true ->
    match s with
    | STensor x _ _ => outcome_but st x (own E (read st) s) (step E st s)
    | _ => outcome st (own E (read st) s) (step E st s)
    end.
  Proof.
    intros st s I D NS. destruct s; cbn [direct] in D; try discriminate D; clear D.
    - cbn [own step]. now apply fresh_outcome.
    - clear NS. cbn [own step]. destruct (mfind y (st_vars st)) as [h|] eqn:Ey.
      + destruct (read_handle st y h I Ey) as [c [Ec [Er Eh]]]. cbn [outcome]. eexists. split; [reflexivity|].
        split; [now apply store_shared_inv|]. intro z. rewrite store_shared_read by assumption. unfold upd. rewrite Ec, Er. reflexivity.
      + cbn [outcome]. eexists. split; [reflexivity|]. split; [now apply drop_inv|]. intro z.
        rewrite (drop_read [] st x z I). unfold upd. now rewrite (read_empty st y Ey).
    - cbn [no_self] in NS. apply negb_true_iff in NS. cbn [own step]. rewrite NS. apply Nat.eqb_neq in NS.
      destruct (mfind y (st_vars st)) as [h|] eqn:Ey.
      + destruct (read_handle st y h I Ey) as [c [Ec [Er Eh]]]. cbn [outcome]. eexists. split; [reflexivity|].
        pose proof (erase_inv [] st y I) as J. rewrite Ey in J.
        split; [now apply store_inv|]. intro z. rewrite (store_read []) by assumption. rewrite (erase_read [] st y z I).
        change (cell (with_vars st (merase y (st_vars st))) (h_core h)) with (cell st (h_core h)). unfold upd. rewrite Ec, Er.
        destruct (Nat.eqb z x) eqn:Ez; destruct (Nat.eqb z y) eqn:Ezy; auto.
        apply Nat.eqb_eq in Ez, Ezy. congruence.
      + cbn [outcome]. eexists. split; [reflexivity|]. split; [now apply drop_inv|]. intro z.
        rewrite (drop_read [] st x z I). unfold upd. rewrite (read_empty st y Ey).
        destruct (Nat.eqb z x) eqn:Ez; destruct (Nat.eqb z y) eqn:Ezy; auto.
        apply Nat.eqb_eq in Ezy. subst z. now apply read_empty.
    - cbn [own step]. unfold read_or_ub. destruct (read st y) as [t|]; cbn [get_or_ub bind]; [|reflexivity].
      apply (fresh_outcome st x (Ok t) I).
    - cbn [own step]. destruct (mfind y (st_vars st)) as [h|] eqn:Ey.
      + destruct (read_handle st y h I Ey) as [c [Ec [Er Eh]]]. rewrite Er. cbn [get_or_ub bind outcome]. eexists.
        split; [reflexivity|]. split; [now apply store_shared_inv|]. intro z. rewrite store_shared_read by assumption.
        unfold upd. rewrite Ec. reflexivity.
      + rewrite (read_empty st y Ey). reflexivity.
    - cbn [own step]. destruct (mfind y (st_vars st)) as [h|] eqn:Ey.
      + destruct (read_handle st y h I Ey) as [c [Ec [Er Eh]]]. unfold read_or_ub. rewrite Er. cbn [get_or_ub bind].
        destruct (edge_unchanged (h_names h) a) eqn:Eu; [|now apply fresh_outcome].
        assert (edge_operator E (mkTensor (h_names h) c) a = Ok (mkTensor (a_new_names a) c)) as ->.
        { unfold edge_operator. cbn [t_names]. unfold edge_unchanged in Eu. rewrite Eu. reflexivity. }
        cbn [bind outcome]. eexists. split; [reflexivity|]. split; [now apply store_shared_inv|]. intro z.
        rewrite store_shared_read by assumption. unfold upd. rewrite Ec. reflexivity.
      + rewrite (read_empty st y Ey). reflexivity.
    - cbn [own step]. rewrite <- mapM_read. pose proof (no_exn st ys) as HT.
      destruct (mapM (read_or_ub st) ys) as [ts|e| |]; cbn [bind outcome]; auto.
      + now apply fresh_outcome.
      + elim (HT e). reflexivity.
    - cbn [own step outcome]. eexists. split; [reflexivity|]. split; [now apply drop_inv|]. intro z.
      now rewrite (drop_read [] st x z I).
    - cbn [own step]. apply mutate_outcome; [exact I|]. intros [names c]. reflexivity.
    - cbn [own step]. apply mutate_outcome; [exact I|]. intros [names c]. reflexivity.
    - cbn [own step]. apply mutate_outcome; [exact I|]. intros [names c]. apply set_at_places.
    - cbn [own step]. apply mutate_outcome; [exact I|]. intros [names c]. unfold set_block. cbn [t_names t_core].
      destruct (block_key names c pos) as [key|e| |]; cbn [bind]; auto. unfold t_blocks, t_edges. cbn [t_core].
      destruct (mfind key (c_blocks c)); reflexivity.
    - cbn [own step]. apply mutate_outcome; [exact I|]. intros [names t]. reflexivity.
    - cbn [no_self] in NS. apply negb_true_iff, Nat.eqb_neq in NS. now apply number_at_outcome.
    - cbn [no_self] in NS. apply negb_true_iff, Nat.eqb_neq in NS. now apply tensor_outcome.
    - now apply ref_outcome.
  Qed.

  (** ** Other variables *)
  Lemma own_others : forall f s g y, own E f s = Ok g -> ~ In y (touched s) -> g y = f y.
  Proof.
    intros f s g y H Hy.
    assert (U : forall x t, In x (touched s) -> upd f x t y = f y).
    { intros x t Hx. unfold upd. destruct (Nat.eqb y x) eqn:Eq; auto. apply Nat.eqb_eq in Eq. congruence. }
    destruct s; cbn [own touched] in *; unfold on in H;
      repeat match type of H with
      | bind ?m _ = Ok _ => destruct m; cbn [bind] in H; try discriminate H
      end; injection H as <-; try (apply U; simpl; tauto); try reflexivity.
    unfold upd. destruct (Nat.eqb y y0) eqn:Eq; [apply Nat.eqb_eq in Eq; simpl in Hy; exfalso; apply Hy; subst; auto|].
    destruct (Nat.eqb y x) eqn:Eq2; auto. apply Nat.eqb_eq in Eq2. simpl in Hy. exfalso; apply Hy; subst; auto.
  Qed.

  Lemma outcome_others : forall st s st' e, outcome st (own E (read st) s) (step E st s) ->
    step E st s = Ok (st', e) -> inv [] st' /\ forall y, ~ In y (touched s) -> read st' y = read st y.
  Proof.
    intros st s st' e H Hs. unfold outcome in H. destruct (own E (read st) s) as [f|e0| |] eqn:Eo.
    - destruct H as [st2 [H1 [H2 H3]]]. rewrite Hs in H1. injection H1 as <- ->. split; auto. intros y Hy.
      rewrite H3. now apply (own_others _ s).
    - destruct H as [st2 [H1 [H2 H3]]]. rewrite Hs in H1. injection H1 as <- ->. auto.
    - congruence.
    - congruence.
  Qed.

  Lemma step_others : forall st s st' e, inv [] st -> direct s = true -> step E st s = Ok (st', e) ->
    inv [] st' /\ forall y, ~ In y (touched s) -> read st' y = read st y.
  Proof.
    intros st s st' e I D Hs. destruct (no_self s) eqn:NS.
    - pose proof (step_own st s I D NS) as H. destruct s; try (now apply (outcome_others _ _ _ _ H Hs)).
      unfold outcome_but in H. destruct (own E (read st) (STensor x op y)) as [f|e0| |] eqn:Eo;
        try (apply (outcome_others st (STensor x op y) st' e); [rewrite Eo; exact H|exact Hs]).
      destruct H as [st2 [H1 [H2 H3]]]. rewrite Hs in H1. injection H1 as <- ->. split; auto. intros z Hz. apply H3.
      left. intros ->. apply Hz. now left.
    - destruct s; cbn [no_self] in NS; try discriminate NS; apply negb_false_iff, Nat.eqb_eq in NS; subst y.
      + cbn [step] in Hs. rewrite Nat.eqb_refl in Hs. discriminate.
      + cbn [step touched] in *. destruct (mfind x (st_vars st)) as [hy|] eqn:Ey; [|discriminate]. cbn [get_or_ub bind] in Hs.
        destruct (read_handle st x hy I Ey) as [cy [Ecy [Ery _]]]. rewrite fetch_cell, Ecy in Hs. cbn [get_or_ub bind] in Hs.
        destruct (locate (h_names hy) cy pos) as [ko|e0| |]; cbn [settle] in Hs; try discriminate Hs;
          [|injection Hs as <- <-; auto].
        destruct (unshare_ok st x _ I Ery) as [st1 [h [-> [I1 [Hv [Hn [Hc [Hr [Hu Ho]]]]]]]]] in Hs. cbn [bind] in Hs.
        destruct (Nat.eqb (h_core h) (h_core hy)); [discriminate|].
        destruct (fetch st1 (h_core hy)) as [c1|e1| |]; cbn [bind] in Hs; try discriminate Hs.
        destruct (peek c1 (fst ko) (snd ko)) as [v|e1| |]; cbn [bind] in Hs; try discriminate Hs.
        rewrite fetch_cell, Hc in Hs. cbn [get_or_ub bind] in Hs. injection Hs as <- <-.
        split; [now apply overwrite_inv|]. intros z Hz.
        rewrite (overwrite_read st1 x h _ z Hv) by (auto; congruence).
        destruct (Nat.eqb z x) eqn:Ez; auto. apply Nat.eqb_eq in Ez. exfalso. apply Hz. left. congruence.
      + cbn [step touched] in *. destruct (read st x) as [t|] eqn:Ex.
        2:{ rewrite (unshare_ub st x I Ex) in Hs. discriminate. }
        destruct (unshare_ok st x t I Ex) as [st1 [h [-> [I1 [Hv [Hn [Hc [Hr [Hu Ho]]]]]]]]] in Hs.
        cbn [bind] in Hs. rewrite Hv in Hs. cbn [get_or_ub bind] in Hs. rewrite fetch_cell, Hc in Hs. cbn [get_or_ub bind] in Hs.
        destruct (aligned E (h_names h) _) as [t2|e0| |]; cbn [settle] in Hs; try discriminate Hs;
          [|injection Hs as <- <-; auto].
        destruct (negb (edges_eqb _ _)); [injection Hs as <- <-; auto|].
        destruct (_ && existsb _ _); [discriminate|].
        destruct (inplace_blocks _ _ _) as [be|e0| |]; cbn [bind] in Hs; try discriminate Hs. injection Hs as <- <-.
        split; [now apply overwrite_inv|]. intros z Hz.
        rewrite (overwrite_read st1 x h _ z Hv) by (auto; congruence).
        destruct (Nat.eqb z x) eqn:Ez; auto. apply Nat.eqb_eq in Ez. exfalso. apply Hz. left. congruence.
  Qed.

  Lemma step_inv : forall st s st' e, inv [] st -> step E st s = Ok (st', e) -> inv [] st'.
  Proof.
    intros st s st' e I Hs. destruct (direct s) eqn:D.
    - now apply (step_others st s st' e).
    - destruct s; try discriminate D. cbn [step] in Hs.
      destruct (mfind r (st_refs st)) as [l|]; cbn [get_or_ub bind] in Hs; [|discriminate].
      destruct (fetch st _) as [c|e0| |]; cbn [bind] in Hs; try discriminate Hs.
      destruct (poke c _ _ v) as [c'|e0| |]; cbn [bind] in Hs; try discriminate Hs. injection Hs as <- <-.
      now apply overwrite_inv.
  Qed.
  Lemma run_inv : forall p st st', inv [] st -> run E st p = Ok st' -> inv [] st'.
  Proof.
    induction p as [|s p IH]; intros st st' I H; cbn [run] in H; [congruence|].
    destruct (step E st s) as [[st1 e]|e0| |] eqn:Es; cbn [bind fst] in H; try discriminate H.
    apply (IH st1); auto. now apply (step_inv st s st1 e).
  Qed.
  Lemma run_others : forall q st st' y, inv [] st -> run E st q = Ok st' -> forallb direct q = true ->
    ~ In y (flat_map touched q) -> read st' y = read st y.
  Proof.
    induction q as [|s q IH]; intros st st' y I H D Hy; cbn [run] in H; [congruence|].
    cbn [forallb flat_map] in *. apply andb_true_iff in D as [D1 D2]. rewrite in_app_iff in Hy.
    destruct (step E st s) as [[st1 e]|e0| |] eqn:Es; cbn [bind fst] in H; try discriminate H.
    destruct (step_others st s st1 e I D1 Es) as [I1 H1]. rewrite (IH st1 st' y I1 H D2) by tauto. apply H1. tauto.
  Qed.
  Lemma run_app : forall p q st, run E st (p ++ q) = bind (run E st p) (fun st1 => run E st1 q).
  Proof.
    induction p as [|s p IH]; intros q st; cbn [run app bind]; [reflexivity|].
    destruct (step E st s) as [[st1 e]|e0| |]; cbn [bind fst]; auto.
  Qed.
End CowStep.
