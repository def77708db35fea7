(** transpose in terms of names; composition of transpositions; rejected name lists. *)
From Coq Require Import String List Bool Arith Lia Sorted Permutation.
From Verif Require Import Base.Outcome Base.SMap Model.Symmetry Model.Edge Model.Core Model.Transpose Model.EdgeOperator
  Spec.Blocks Spec.Fuse Spec.Strided Spec.Sign Proof.SymmetryFacts Proof.LoopFacts Proof.CoreFacts Proof.ConstructFacts Proof.ElemFacts Proof.OffsetFacts
  Proof.KernelFacts Proof.TransposeFacts Proof.GroupFacts Proof.CopyLoopFacts Proof.TableFacts Proof.EdgeOperatorFacts Proof.EdgeOperatorMain Proof.SignFacts
  Proof.TransposeTensor.
Import ListNotations.

Lemma permuted_compose : forall A (d : A) p2 p1 l, (forall j, In j p2 -> j < length p1) ->
  permuted d p2 (permuted d p1 l) = permuted d (permuted 0 p2 p1) l.
Proof.
  intros A d p2 p1 l H. unfold permuted. rewrite map_map. apply map_ext_in. intros j Hj.
  rewrite (nth_indep _ d (nth 0 l d)) by (rewrite map_length; auto). exact (map_nth (fun i => nth i l d) p1 0 j).
Qed.
Lemma permuted_NoDup_inj : forall (l : list nat) a b, NoDup l -> (forall j, In j a -> j < length l) -> (forall j, In j b -> j < length l) ->
  permuted 0 a l = permuted 0 b l -> a = b.
Proof.
  intros l. induction a as [|x a IH]; intros [|y b] Hn Ha Hb H; try discriminate; auto.
  cbn [permuted map] in H. injection H as H1 H2. f_equal.
  - apply (proj1 (NoDup_nth l 0) Hn); auto; [apply Ha|apply Hb]; now left.
  - apply IH; auto; intros; [apply Ha|apply Hb]; now right.
Qed.
Lemma plan_in_bound : forall rank s2d d2s, inverse_plans rank s2d d2s -> forall j, In j d2s -> j < rank.
Proof. intros rank s2d d2s [_ [L [_ H]]] j Hj. apply (In_nth _ _ 0) in Hj as [i [Hi <-]]. apply H. lia. Qed.
Lemma nth_error_permuted : forall A (d : A) plan l j x, nth_error plan j = Some x -> x < length l ->
  nth_error (permuted d plan l) j = nth_error l x.
Proof. intros A d plan l j x H Hx. unfold permuted. rewrite (map_nth_error _ _ _ H). symmetry. now apply nth_error_nth'. Qed.
Lemma combine_permuted : forall A B (da : A) (db : B) plan l1 l2, length l1 = length l2 ->
  combine (permuted da plan l1) (permuted db plan l2) = permuted (da, db) plan (combine l1 l2).
Proof.
  intros A B da db plan l1 l2 H. induction plan as [|j plan IH]; [reflexivity|]. cbn [permuted map combine].
  rewrite combine_nth by auto. f_equal. exact IH.
Qed.

Section Names.
  Context {S R : Type} {SS : Sym S} {SL : SymLaws S} {RR : Scalar R}.
  Notation entry := (S * nat)%type.

  Lemma assigns_length : forall (pos : position) names (pt : list entry), assigns pos names pt -> length names = length pt.
  Proof. intros pos names pt H. apply (f_equal (@length _)) in H. now rewrite !map_length in H. Qed.
  Lemma assigns_nth : forall (pos : position) names (pt : list entry) i n x, assigns pos names pt ->
    nth_error names i = Some n -> nth_error pt i = Some x -> mfind n pos = Some x.
  Proof.
    intros pos names pt i n x H H1 H2. unfold assigns in H.
    apply (map_nth_error (fun n => mfind n pos)) in H1. apply (map_nth_error (@Some entry)) in H2.
    rewrite H, H2 in H1. now injection H1 as <-.
  Qed.
  Lemma assigns_intro : forall (pos : position) names (pt : list entry), length names = length pt ->
    (forall i n x, nth_error names i = Some n -> nth_error pt i = Some x -> mfind n pos = Some x) -> assigns pos names pt.
  Proof.
    unfold assigns. intros pos names. induction names as [|n names IH]; intros [|x pt] HL H; try discriminate; auto.
    cbn [map]. f_equal; [exact (H 0 n x eq_refl eq_refl)|]. apply IH; [simpl in HL; lia|]. intros i m y H1 H2. exact (H (Datatypes.S i) m y H1 H2).
  Qed.
  Lemma assigns_permuted : forall (pos : position) names (pt : list entry) d2s, assigns pos names pt ->
    (forall j, In j d2s -> j < length names) -> assigns pos (permuted 0 d2s names) (permuted (szero, 0) d2s pt).
  Proof.
    intros pos names pt d2s H Hb. pose proof (assigns_length _ _ _ H) as HL. apply assigns_intro; [now rewrite !permuted_length|].
    intros i n x H1 H2.
    assert (Hi : i < length d2s). { rewrite <- (permuted_length _ 0 d2s names). apply nth_error_Some. intro Hc. pose proof (eq_trans (eq_sym Hc) H1) as Hd. discriminate. }
    pose proof (nth_error_nth' d2s 0 Hi) as Hx. assert (Hin : In (nth i d2s 0) d2s) by now apply nth_In.
    rewrite (nth_error_permuted _ _ _ _ _ _ Hx) in H1 by auto. rewrite (nth_error_permuted _ _ _ _ _ _ Hx) in H2 by (rewrite <- HL; auto).
    eapply assigns_nth; eauto.
  Qed.

  Lemma leg_odd_nth : forall (pos : position) names (pt : list entry) i n s, assigns pos names pt ->
    nth_error names i = Some n -> nth_error (map fst pt) i = Some s -> leg_odd pos n = sodd s.
  Proof.
    intros pos names pt i n s H H1 H2. rewrite nth_error_map in H2. destruct (nth_error pt i) as [[s' k]|] eqn:E; [|discriminate].
    injection H2 as <-. unfold leg_odd. now rewrite (assigns_nth _ _ _ _ _ _ H H1 E).
  Qed.
  Lemma bose_odd : is_fermi = false -> forall s : S, sodd s = false.
  Proof. intros H s. unfold sodd. now rewrite (bose_even H). Qed.
  Lemma bose_exchanged : is_fermi = false -> forall (pos : position) l1 l2, exchanged_odd (@leg_odd S SS pos) l1 l2 = 0.
  Proof.
    intros H pos l1 l2. unfold exchanged_odd. induction (ordered_pairs l1) as [|[x y] l IH]; [reflexivity|]. cbn [filter fst snd].
    replace (leg_odd pos x) with false; [exact IH|]. unfold leg_odd. destruct (mfind x pos) as [[s k]|]; auto. symmetry. now apply bose_odd.
  Qed.

  Lemma transposed_named : forall (t r : tensor S R) target d2s pos pt, wf_tensor t -> transposed t r target d2s ->
    assigns pos (t_names t) pt -> valid_pt (t_core t) pt ->
    exists v, elem (t_core t) pt = Some v /\ valid_pt (t_core r) (permuted (szero, 0) d2s pt) /\
      assigns pos target (permuted (szero, 0) d2s pt) /\
      elem (t_core r) (permuted (szero, 0) d2s pt) = Some (signed ropp (exchanged_odd (leg_odd pos) (t_names t) target) v).
  Proof.
    intros t r target d2s pos pt W [HP [HT [Wr [Hn [He Hel]]]]] Ha Hv.
    destruct (Hel pt Hv) as [v [V1 [V2 V3]]]. exists v. split; auto. split; auto. split.
    - rewrite HT. apply assigns_permuted; auto. eapply plan_in_bound; eauto.
    - rewrite V3. f_equal. unfold signed, sgn.
      replace (if is_fermi then get_transpose_parity (map fst pt) (invert_plan d2s) else false)
        with (Nat.odd (exchanged_odd (leg_odd pos) (t_names t) target)); [reflexivity|].
      destruct is_fermi eqn:F.
      + rewrite HT. symmetry. apply transpose_parity_names; auto.
        * apply W.
        * rewrite map_length. symmetry. eapply assigns_length; eauto.
        * intros i n s H1 H2. eapply leg_odd_nth; eauto.
      + now rewrite bose_exchanged.
  Qed.

  Lemma valid_permuted_inv : forall (t r : tensor S R) target d2s, wf_tensor t -> transposed t r target d2s ->
    forall x, valid_pt (t_core r) x -> exists p, valid_pt (t_core t) p /\ x = permuted (szero, 0) d2s p.
  Proof.
    intros t r target d2s W [HP [HT [Wr [Hn [He Hel]]]]] x [Hx Hz].
    assert (HL : length x = length (t_names t)).
    { apply in_range_length in Hx. rewrite Hx. unfold maps_of. fold (t_edges r). rewrite map_length, He, permuted_length. apply HP. }
    exists (permuted (szero, 0) (invert_plan d2s) x). split; [split|].
    - pose proof (inverse_plans_sym _ _ _ HP) as HP2.
      replace (maps_of (c_edges (t_core t))) with (permuted [] (invert_plan d2s) (maps_of (t_edges r))).
      + apply in_range_permuted; auto. intros j Hj. unfold maps_of. rewrite map_length, He, permuted_length.
        destruct HP as [_ [L2 _]]. rewrite L2. eapply plan_in_bound; eauto.
      + rewrite He. unfold maps_of at 1. change (@nil entry) with (emap (@dflt_edge S)). rewrite permuted_map.
        fold (t_edges t). rewrite (permuted_inverse _ _ _ _ _ _ HP2); [reflexivity|]. symmetry. apply W.
    - transitivity (ssum (map fst x)); [|exact Hz]. apply ssum_perm. apply Permutation_map.
      eapply permuted_Permutation; [apply inverse_plans_sym; exact HP|exact HL].
    - symmetry. eapply permuted_inverse; eauto.
  Qed.

  Variable E : @env R.

  (** ** transposition by names *)
  Theorem transpose_named : forall (t : tensor S R) target, wf_tensor t -> Permutation (t_names t) target ->
    exists r, transpose E t target = Ok r /\ wf_tensor r /\ t_names r = target /\
      (forall n e, In (n, e) (combine (t_names r) (t_edges r)) <-> In (n, e) (combine (t_names t) (t_edges t))) /\
      forall pos pt, assigns pos (t_names t) pt -> valid_pt (t_core t) pt ->
        exists v, const_at t pos = Ok v /\
          const_at r pos = Ok (signed ropp (exchanged_odd (leg_odd pos) (t_names t) target) v).
  Proof.
    intros t target W HP. destruct (transpose_ok E t target W HP) as [r [d2s [Hr Ht]]]. exists r. split; auto.
    pose proof Ht as [Hpl [HT [Wr [Hn [He Hel]]]]]. split; auto. split; auto. split.
    - intros n e. rewrite Hn, He, HT. rewrite combine_permuted by apply W.
      assert (HPm : Permutation (permuted (0, dflt_edge) d2s (combine (t_names t) (t_edges t))) (combine (t_names t) (t_edges t))).
      { eapply permuted_Permutation; eauto. rewrite combine_length, (wf_rank _ W). lia. }
      split; intro H; [exact (Permutation_in _ HPm H)|exact (Permutation_in _ (Permutation_sym HPm) H)].
    - intros pos pt Ha Hv. destruct (transposed_named t r target d2s pos pt W Ht Ha Hv) as [v [V1 [V2 [V3 V4]]]].
      exists v. rewrite <- Hn in V3.
      destruct (const_at_elem t pos pt W Ha Hv) as [v' [E1 E2]]. rewrite V1 in E1. injection E1 as <-. split; auto.
      destruct (const_at_elem r pos _ Wr V3 V2) as [w [F1 F2]]. rewrite V4 in F1. injection F1 as <-. exact F2.
  Qed.
  Lemma signed_0 : forall v : R, signed ropp 0 v = v.
  Proof. reflexivity. Qed.

  Theorem transpose_bosonic : forall (t : tensor S R) target, is_fermi = false -> wf_tensor t -> Permutation (t_names t) target ->
    exists r, transpose E t target = Ok r /\ wf_tensor r /\ t_names r = target /\
      (forall n e, In (n, e) (combine (t_names r) (t_edges r)) <-> In (n, e) (combine (t_names t) (t_edges t))) /\
      forall pos pt, assigns pos (t_names t) pt -> in_range (map emap (t_edges t)) pt -> const_at r pos = const_at t pos.
  Proof.
    intros t target F W HP. destruct (transpose_ok E t target W HP) as [r' [d2s [Hr' Ht]]].
    destruct (transpose_named t target W HP) as [r [Hr [Wr [Hn [He Hc]]]]]. rewrite Hr in Hr'. injection Hr' as <-.
    exists r. split; auto. split; auto. split; auto. split; auto.
    intros pos pt Ha Hin. destruct (ord_dec (ssum (map fst pt)) szero) as [Hz|Hz].
    - destruct (Hc pos pt Ha (conj Hin Hz)) as [v [-> ->]]. now rewrite bose_exchanged.
    - rewrite (const_at_forbidden t pos pt) by auto. destruct Ht as [Hpl [HT [_ [_ [Hed _]]]]].
      apply const_at_forbidden with (pt := permuted (szero, 0) d2s pt); auto.
      + rewrite Hn, HT. apply assigns_permuted; auto. eapply plan_in_bound; eauto.
      + rewrite Hed. unfold maps_of. change (@nil entry) with (emap (@dflt_edge S)). rewrite <- (permuted_map _ _ emap).
        apply in_range_permuted; auto. intros j Hj. rewrite map_length, <- (wf_rank _ W). eapply plan_in_bound; eauto.
      + intro Hz2. apply Hz. rewrite <- Hz2. apply ssum_perm. apply Permutation_map. apply Permutation_sym.
        eapply permuted_Permutation; eauto. symmetry. eapply assigns_length; eauto.
  Qed.

  (** ** composition *)
  Lemma transposed_unique : forall (t r1 r2 r3 : tensor S R) n1 n2 d1 d2 d3, (forall v : R, ropp (ropp v) = v) -> wf_tensor t ->
    transposed t r1 n1 d1 -> transposed r1 r2 n2 d2 -> transposed t r3 n2 d3 -> r2 = r3.
  Proof.
    intros t r1 r2 r3 n1 n2 d1 d2 d3 Hopp W T1 T2 T3.
    pose proof T1 as [P1 [N1 [W1 [Nm1 [Ed1 _]]]]]. pose proof T2 as [P2 [N2 [W2 [Nm2 [Ed2 _]]]]]. pose proof T3 as [P3 [N3 [W3 [Nm3 [Ed3 _]]]]].
    assert (Hlen : length (t_names r1) = length (t_names t)). { rewrite Nm1, N1, permuted_length. apply P1. }
    assert (B2 : forall j, In j d2 -> j < length d1).
    { intros j Hj. destruct P1 as [_ [L _]]. rewrite L, <- Hlen. eapply plan_in_bound; eauto. }
    assert (Hd : d3 = permuted 0 d2 d1).
    { apply (permuted_NoDup_inj (t_names t)).
      - apply W.
      - eapply plan_in_bound; eauto.
      - intros j Hj. unfold permuted in Hj. apply in_map_iff in Hj as [i [<- Hi]].
        eapply plan_in_bound; [exact P1|]. apply nth_In. now apply B2.
      - rewrite <- N3, N2, Nm1, N1. now apply permuted_compose. }
    apply tensor_ext; auto.
    - congruence.
    - rewrite Ed2, Ed1, Ed3, Hd. now apply permuted_compose.
    - intros x Hx. destruct (valid_permuted_inv r1 r2 n2 d2 W1 T2 x Hx) as [y [Hy ->]].
      destruct (valid_permuted_inv t r1 n1 d1 W T1 y Hy) as [p [Hp ->]].
      assert (Ha : assigns (combine (t_names t) p) (t_names t) p).
      { apply assigns_combine; [apply W|]. rewrite (wf_rank _ W). destruct Hp as [Hp _]. apply in_range_length in Hp.
        rewrite Hp. unfold maps_of, t_edges. now rewrite map_length. }
      set (pos := combine (t_names t) p) in *.
      destruct (transposed_named t r1 n1 d1 pos p W T1 Ha Hp) as [v [V1 [V2 [V3 V4]]]]. rewrite <- Nm1 in V3.
      destruct (transposed_named r1 r2 n2 d2 pos _ W1 T2 V3 V2) as [w [X1 [X2 [X3 X4]]]].
      destruct (transposed_named t r3 n2 d3 pos p W T3 Ha Hp) as [u [U1 [U2 [U3 U4]]]].
      rewrite X4. rewrite permuted_compose by auto. rewrite <- Hd, U4.
      rewrite V1 in U1. injection U1 as <-. rewrite V4 in X1. injection X1 as <-. f_equal.
      assert (PT1 : Permutation (t_names t) n1).
      { rewrite N1. apply Permutation_sym. eapply permuted_Permutation; eauto. }
      assert (PT2 : Permutation n1 n2).
      { rewrite N2. rewrite Nm1. apply Permutation_sym. eapply permuted_Permutation; [exact P2|]. congruence. }
      pose proof (exchanged_compose (leg_odd pos) (t_names t) n1 n2 (wf_nodup _ W) PT1 PT2) as HC.
      rewrite Nm1. unfold signed. rewrite HC.
      destruct (Nat.odd (exchanged_odd (leg_odd pos) (t_names t) n1)), (Nat.odd (exchanged_odd (leg_odd pos) n1 n2)); simpl; auto.
  Qed.

  Theorem transpose_transpose : forall (E' E'' : @env R) (t : tensor S R) n1 n2, (forall v : R, ropp (ropp v) = v) -> wf_tensor t ->
    Permutation (t_names t) n1 -> Permutation (t_names t) n2 ->
    exists r, bind (transpose E t n1) (fun r1 => transpose E' r1 n2) = Ok r /\ transpose E'' t n2 = Ok r.
  Proof.
    intros E' E'' t n1 n2 Hopp W H1 H2.
    destruct (transpose_ok E t n1 W H1) as [r1 [d1 [R1 T1]]].
    assert (W1 : wf_tensor r1) by apply T1. assert (Hn1 : t_names r1 = n1) by apply T1.
    assert (H12 : Permutation (t_names r1) n2). { rewrite Hn1. eapply Permutation_trans; [apply Permutation_sym; exact H1|exact H2]. }
    destruct (transpose_ok E' r1 n2 W1 H12) as [r2 [d2 [R2 T2]]].
    destruct (transpose_ok E'' t n2 W H2) as [r3 [d3 [R3 T3]]].
    exists r3. split; auto. rewrite R1. cbn [bind]. rewrite R2. f_equal.
    exact (transposed_unique t r1 r2 r3 n1 n2 d1 d2 d3 Hopp W T1 T2 T3).
  Qed.
  Theorem transpose_back : forall (E' : @env R) (t : tensor S R) n1, (forall v : R, ropp (ropp v) = v) -> wf_tensor t ->
    Permutation (t_names t) n1 ->
    bind (transpose E t n1) (fun r1 => transpose E' r1 (t_names t)) = Ok t.
  Proof.
    intros E' t n1 Hopp W H1.
    destruct (transpose_transpose E' E' t n1 (t_names t) Hopp W H1 (Permutation_refl _)) as [r [H2 H3]]. rewrite H2, <- H3.
    unfold transpose, edge_operator. cbn [no_args a_rename a_split a_reversed a_merge a_cut a_new_names is_nil].
    rewrite !andb_true_r. assert (Hid : map (rename_one []) (t_names t) = t_names t) by apply map_id. rewrite Hid.
    replace (is_same_vector (t_names t) (t_names t)) with true; [now destruct t|].
    symmetry. unfold is_same_vector. rewrite Nat.eqb_refl. simpl. apply forallb_forall. intros [x y] HI.
    apply Nat.eqb_eq. clear - HI. cbn [fst snd]. induction (tl (t_names t)) as [|z l IH]; [contradiction|].
    destruct HI as [HI|HI]; [congruence|auto].
  Qed.
  (** ** rejected name lists *)
  Theorem transpose_bad_names : forall (t : tensor S R) target, wf_tensor t -> ~ Permutation (t_names t) target ->
    is_same_vector (t_names t) target = false -> exists msg, transpose E t target = Throw (RuntimeError msg).
  Proof.
    intros t target W HP Hs. unfold transpose, edge_operator.
    assert (Hid : map (rename_one []) (t_names t) = t_names t) by apply map_id.
    cbn [no_args a_rename a_split a_reversed a_merge a_cut a_new_names is_nil]. rewrite Hid, Hs. cbn [andb].
    set (a := @no_args S target).
    assert (Hsp : mapM (split_one []) (combine (t_names t)
        (map (fun ne : name * edge S => cut_edge [] (fst ne) (snd ne)) (combine (t_names t) (t_edges t))))
        = Ok (map (fun ne => ([ne], [])) (combine (t_names t) (t_edges t)))).
    { replace (map (fun ne : name * edge S => cut_edge [] (fst ne) (snd ne)) (combine (t_names t) (t_edges t))) with (t_edges t).
      - apply mapM_all_ok. intros [n e] _. reflexivity.
      - symmetry. exact (plain_edges1 t a W eq_refl). }
    match goal with |- exists _, bind ?X _ = _ => replace X with (@Ok (list (list (name * edge S) * @offset_map S)) (map (fun ne => ([ne], [])) (combine (t_names t) (t_edges t)))) by (symmetry; exact Hsp) end.
    cbn [bind]. rewrite map_map. cbn [fst]. rewrite singles_concat. rewrite combine_map_fst by apply W.
    replace (concat (merge_groups [] target)) with target.
    2: { unfold merge_groups. cbn [mfind]. symmetry. apply singles_concat. }
    destruct (Nat.eqb_spec (length (t_names t)) (length target)) as [HL|HL]; cbn [negb]; [|eexists; reflexivity].
    (* some name is missing, or repeated *)
    assert (G : (exists l, mapM (fun n => match mfind n (construct_name_to_index (t_names t)) with
                         | Some i => Ok i | None => tat_error "Tensor to transpose with incompatible name list" end) target = Ok l /\ incl target (t_names t)) \/
                mapM (fun n => match mfind n (construct_name_to_index (t_names t)) with
                         | Some i => Ok i | None => tat_error "Tensor to transpose with incompatible name list" end) target
                  = @Throw (list nat) (RuntimeError "Tensor to transpose with incompatible name list")).
    { clear - W. induction target as [|n l IH]; [left; exists []; split; [reflexivity|intros x []]|]. cbn [mapM].
      destruct (mfind n (construct_name_to_index (t_names t))) as [i|] eqn:En; [|right; reflexivity].
      apply name_index in En; [|apply W]. apply nth_error_In in En. cbn [bind].
      destruct IH as [[l' [-> Hl]]| ->]; [|right; reflexivity]. left. eexists. split; [reflexivity|].
      intros x [<-|Hx]; auto. }
    destruct G as [[d2s [Hd Hincl]]|Hd].
    2: { eexists. match goal with |- bind ?X _ = _ => replace X with (@Throw (list nat) (RuntimeError "Tensor to transpose with incompatible name list")) by (symmetry; exact Hd) end. reflexivity. }
    match goal with |- exists _, bind ?X _ = _ => replace X with (@Ok (list nat) d2s) by (symmetry; exact Hd) end. cbn [bind].
    rewrite map_map. cbn [fst snd].
    assert (Hnd : ~ NoDup target).
    { intro Hn. apply HP. apply Permutation_sym. apply NoDup_Permutation_bis; auto. lia. }
    match goal with |- exists _, bind (make_core _ ?es false) _ = _ => set (es0 := es) end.
    assert (Hld : length d2s = length target) by (eapply mapM_ok_length; eauto).
    assert (Hs0 : sorted_maps (maps_of es0)).
    { unfold es0. rewrite map_id. unfold sorted_maps, maps_of. rewrite Forall_map. apply Forall_forall. intros e He.
      apply in_map_iff in He as [i [<- _]].
      match goal with |- msorted (emap (nth i ?l ?d)) => destruct (Nat.lt_ge_cases i (length l)) as [Hlt|Hge];
        [|rewrite nth_overflow by auto; constructor]; pose proof (nth_In l d Hlt) as HI end.
      apply in_map_iff in HI as [[b e] [<- HI]]. apply in_combine_r in HI. apply in_map_iff in HI as [[n e0] [<- HI]]. apply in_combine_r in HI. cbn [fst snd].
      pose proof (wf_maps _ (wf_tcore _ W)) as Wm. unfold sorted_maps, maps_of in Wm. rewrite Forall_map, Forall_forall in Wm.
      destruct b; cbn [fst snd emap]; exact (Wm e0 HI). }
    rewrite (make_core_eq (env_junk E) es0 false Hs0). cbn [bind]. rewrite andb_false_r. cbn [c_edges].
    rewrite prune_length. unfold check_valid_name. replace (length es0) with (length target).
    2: { unfold es0. now rewrite !map_length. }
    rewrite Nat.eqb_refl. cbn [negb].
    replace (has_dup target) with true; [eexists; reflexivity|].
    symmetry. destruct (has_dup target) eqn:Hdup; auto. exfalso. apply Hnd. clear - Hdup.
    induction target as [|n l IH]; [constructor|]. simpl in Hdup. apply orb_false_iff in Hdup as [H1 H2]. constructor; auto.
    intro Hin. rewrite <- not_true_iff_false in H1. apply H1. apply existsb_exists. exists n. split; auto. apply Nat.eqb_refl.
  Qed.
End Names.

Lemma is_same_vector_true : forall v1 v2, is_same_vector v1 v2 = true ->
  (v1 = [] /\ v2 = []) \/ exists x y l, v1 = x :: l /\ v2 = y :: l.
Proof.
  intros v1 v2 H. unfold is_same_vector in H. apply andb_true_iff in H as [H1 H2]. apply Nat.eqb_eq in H1.
  destruct v1 as [|x l1], v2 as [|y l2]; try discriminate; [now left|]. right. exists x, y, l1. split; auto. f_equal.
  cbn [tl] in H2. simpl in H1. injection H1 as H1. clear x y. revert l2 H1 H2. induction l1 as [|a l1 IH]; intros [|b l2] H1 H2; try discriminate; auto.
  cbn [combine forallb fst snd] in H2. apply andb_true_iff in H2 as [H2 H3]. apply Nat.eqb_eq in H2. simpl in H1. f_equal; auto.
Qed.
Section BadList.
  Context {S R : Type} {SS : Sym S} {SL : SymLaws S} {RR : Scalar R}.
  Theorem transpose_bad_list : forall (E : @env R) (t : tensor S R) target, wf_tensor t -> ~ Permutation (t_names t) target ->
    (forall x y l, t_names t = x :: l -> target <> y :: l) -> exists msg, transpose E t target = Throw (RuntimeError msg).
  Proof.
    intros E t target W HP H. apply transpose_bad_names; auto. destruct (is_same_vector (t_names t) target) eqn:Hs; auto.
    apply is_same_vector_true in Hs as [[H1 H2]|[x [y [l [H1 H2]]]]].
    - exfalso. apply HP. rewrite H1, H2. constructor.
    - exfalso. exact (H x y l H1 H2).
  Qed.
End BadList.
