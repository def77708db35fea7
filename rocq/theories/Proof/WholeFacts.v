(** Whole-tensor functions, arithmetic with numbers and in place. *)
From Coq Require Import String List Bool Arith Lia Sorted Permutation.
From Verif Require Import Base.Outcome Base.SMap Model.Symmetry Model.Edge Model.Core Model.EdgeOperator Model.Elementwise
  Spec.Blocks Spec.Sign Spec.Relabel Spec.Values Proof.SymmetryFacts Proof.LoopFacts Proof.CoreFacts Proof.ConstructFacts Proof.ElemFacts
  Proof.AddressFacts Proof.TableFacts Proof.TransposeTensor Proof.SignFacts Proof.TransposeNames Proof.NamedOperator Proof.MergeFacts Proof.SplitMerged
  Proof.LegFacts Proof.ElementwiseFacts Proof.ScalarOpFacts.
Import ListNotations.

Lemma mapM_map : forall A B C (f : A -> B) (g : B -> res C) l, mapM g (map f l) = mapM (fun a => g (f a)) l.
Proof. intros. induction l as [|a l IH]; [reflexivity|]. cbn [map mapM]. now rewrite IH. Qed.
Lemma mapM_ext_in : forall A B (f g : A -> res B) l, (forall a, In a l -> f a = g a) -> mapM f l = mapM g l.
Proof. intros A B f g l H. induction l as [|a l IH]; [reflexivity|]. cbn [mapM]. rewrite H by (now left). rewrite IH; [reflexivity|]. intros; apply H; now right. Qed.
Lemma mapM_nth_id : forall A B (f : A -> B) (l : list A), mapM (fun j => bind (get_or_ub (nth_error l j)) (fun x => Ok (f x))) (seq 0 (length l)) = Ok (map f l).
Proof.
  intros A B f l. assert (G : forall l2 l1, mapM (fun j => bind (get_or_ub (nth_error (l1 ++ l2) j)) (fun x => Ok (f x))) (seq (length l1) (length l2)) = Ok (map f l2)).
  { induction l2 as [|a l2 IH]; intro l1; [reflexivity|]. cbn [length seq mapM map]. rewrite nth_error_app2, Nat.sub_diag by lia. cbn [nth_error get_or_ub bind].
    specialize (IH (l1 ++ [a])). rewrite <- app_assoc in IH. cbn [app] in IH. rewrite app_length in IH. cbn [length] in IH. rewrite Nat.add_1_r in IH. rewrite IH. reflexivity. }
  apply (G l []).
Qed.

Section Whole.
  Context {S R : Type} {SS : Sym S} {SL : SymLaws S} {RR : Scalar R}.
  Notation entry := (S * nat)%type.
  Notation tlegs t := (combine (t_names t) (t_edges t)).

  Theorem scalar_op_bosonic : forall (E : @env R) op (t1 t2 : tensor S R), is_fermi = false -> wf_tensor t1 -> wf_tensor t2 ->
    Permutation (t_names t2) (t_names t1) -> compatible t1 t2 ->
    exists r, scalar_op E op t1 t2 = Ok r /\ wf_tensor r /\ t_names r = t_names t1 /\
      forall pos, common_coordinate t1 t2 pos -> exists v1 v2 w, value_or_zero t1 pos v1 /\ value_or_zero t2 pos v2 /\ const_at r pos = Ok w /\
        ((lacks t1 pos /\ lacks t2 pos -> w = rzero) /\ (~ (lacks t1 pos /\ lacks t2 pos) -> w = op v1 v2)).
  Proof.
    intros E op t1 t2 F W1 W2 HP Hc. destruct (scalar_op_at E op t1 t2 W1 W2 HP Hc) as [r [H1 [H2 [H3 [_ [_ H4]]]]]]. exists r. repeat (split; auto).
    intros pos Hp. destruct (H4 pos Hp) as [v1 [v2 [w [A [B [C D]]]]]]. exists v1, v2, w. split; auto. split; auto.
    destruct B as [[u [B1 [B2 B3]]]|B]; [|right; auto]. left. rewrite bose_exchanged in B2 by auto. cbn in B2. subst. auto.
  Qed.

  (** *** errors *)
  Lemma union_conflict : forall (m2 m1 : list entry), msorted m1 -> msorted m2 -> ~ agree m1 m2 ->
    foldM (fun m sd => match mfind (fst sd) m with
            | None => Ok (mset (fst sd) (snd sd) m)
            | Some d => if Nat.eqb d (snd sd) then Ok m
                        else tat_error "Try to do scalar operator on two tensors which edges not compatible"%string
            end) m2 m1 = tat_error "Try to do scalar operator on two tensors which edges not compatible"%string.
  Proof.
    induction m2 as [|[s d] m2 IH]; intros m1 H1 H2 Ha.
    - exfalso. apply Ha. intros s d1 d2 _ X. discriminate.
    - apply msorted_cons_inv in H2 as [H2 Hlt]. cbn [foldM fst snd].
      assert (Hnone : mfind s m2 = None).
      { apply mfind_None. intro Hi. apply Hlt in Hi. now apply lt_irrefl in Hi. }
      destruct (mfind s m1) as [d0|] eqn:E.
      + destruct (Nat.eqb_spec d0 d) as [->|Hne]; [|reflexivity]. cbn [bind]. apply IH; auto. intro Ha'. apply Ha.
        intros s' d1 d2 X1 X2. cbn [mfind] in X2. destruct (eqb s' s) eqn:Es; [|now apply (Ha' s')]. apply eqb_eq in Es. subst. congruence.
      + cbn [bind]. apply IH; auto; [now apply mset_sorted|]. intro Ha'. apply Ha. intros s' d1 d2 X1 X2. cbn [mfind] in X2.
        destruct (eqb s' s) eqn:Es; [apply eqb_eq in Es; subst; congruence|]. apply (Ha' s'); auto.
        rewrite mfind_mset_other; auto. now apply eqb_false.
  Qed.
  Lemma agree_dec : forall m1 m2 : list entry, msorted m1 -> agree m1 m2 \/ ~ agree m1 m2.
  Proof.
    intros m1 m2 Hs. destruct (forallb (fun sd => match mfind (fst sd) m2 with Some d => Nat.eqb (snd sd) d | None => true end) m1) eqn:Eb.
    - left. intros s d1 d2 X1 X2. rewrite forallb_forall in Eb. apply mfind_In in X1. specialize (Eb _ X1). cbn [fst snd] in Eb. rewrite X2 in Eb. now apply Nat.eqb_eq.
    - right. intro Ha. rewrite <- not_true_iff_false in Eb. apply Eb. apply forallb_forall. intros [s d] Hin. cbn [fst snd]. destruct (mfind s m2) as [d2|] eqn:E2; auto.
      apply Nat.eqb_eq. apply (Ha s); auto. now apply In_mfind.
  Qed.
  Theorem scalar_op_rank : forall (E : @env R) op (t1 t2 : tensor S R), length (t_names t1) <> length (t_names t2) ->
    scalar_op E op t1 t2 = tat_error "Try to do scalar operator on two different rank tensor".
  Proof. intros E op t1 t2 H. unfold scalar_op. apply Nat.eqb_neq in H. now rewrite H. Qed.
  Theorem scalar_op_incompatible : forall (E : @env R) op (t1 t2 : tensor S R), wf_tensor t1 -> wf_tensor t2 ->
    Permutation (t_names t2) (t_names t1) -> ~ compatible t1 t2 ->
    scalar_op E op t1 t2 = tat_error "Try to do scalar operator on two tensors which edges not compatible".
  Proof.
    intros E op t1 t2 W1 W2 HP Hc. unfold scalar_op. rewrite (Permutation_length HP), Nat.eqb_refl. cbn [negb].
    destruct (aligned_ok E (t_names t1) t2 W2 HP) as [t2' [-> [W2' [Hn2 [HL2 _]]]]]. cbn [bind].
    assert (Hc' : ~ Forall (fun ee => agree (emap (fst ee)) (emap (snd ee))) (combine (t_edges t1) (t_edges t2'))).
    { intro HF. apply Hc. intros n e1 e2 s d1 d2 X1 X2 Y1 Y2. apply HL2 in X2. assert (Xs1 := leg_sorted t1 n e1 W1 X1). assert (Xs2 := leg_sorted t2' n e2 W2' X2).
      rewrite Forall_forall in HF. assert (Hin : In (e1, e2) (combine (t_edges t1) (t_edges t2'))).
      { apply In_nth_error in X1 as [i X1]. apply combine_nth_inv in X1 as [I1 I2]. apply In_nth_error in X2 as [j X2]. apply combine_nth_inv in X2 as [J1 J2].
        rewrite Hn2 in J1. assert (i = j). { apply (proj1 (NoDup_nth_error (t_names t1)) (wf_nodup _ W1)); [apply nth_error_Some; congruence|congruence]. }
        subst j. apply (nth_error_In _ i). now apply combine_nth_some. }
      apply (HF _ Hin s); apply In_mfind; auto. }
    replace (edges_eqb (t_edges t1) (t_edges t2')) with false.
    - assert (Hm : mapM (fun ee => union_edge (fst ee) (snd ee)) (combine (t_edges t1) (t_edges t2')) = tat_error "Try to do scalar operator on two tensors which edges not compatible");
        [|rewrite Hm; reflexivity].
      assert (Hs : Forall (fun ee => msorted (emap (fst ee)) /\ msorted (emap (snd ee))) (combine (t_edges t1) (t_edges t2'))).
      { apply Forall_forall. intros [e1 e2] Hin. cbn [fst snd]. pose proof (wf_maps _ (wf_tcore _ W1)) as S1. pose proof (wf_maps _ (wf_tcore _ W2')) as S2.
        unfold sorted_maps in S1, S2. rewrite Forall_forall in S1, S2. split; [apply S1; apply in_combine_l in Hin|apply S2; apply in_combine_r in Hin]; unfold maps_of; now apply in_map. }
      clear - Hc' Hs SL. induction (combine (t_edges t1) (t_edges t2')) as [|[e1 e2] l IH]; [exfalso; apply Hc'; constructor|].
      inversion Hs as [|? ? [Hs1 Hs2] Hs']; subst. cbn [fst snd] in *. cbn [mapM fst snd]. unfold union_edge at 1.
      destruct (agree_dec (emap e1) (emap e2) Hs1) as [Ha|Ha].
      + destruct (union_loop (emap e2) (emap e1) Hs1 Hs2 Ha) as [m [-> _]]. cbn [bind]. rewrite IH; auto.
      + now rewrite (union_conflict _ _ Hs1 Hs2 Ha).
    - symmetry. apply not_true_iff_false. intro HE. apply Hc'. unfold edges_eqb in HE. apply andb_true_iff in HE as [_ HE]. rewrite forallb_forall in HE.
      apply Forall_forall. intros [e1 e2] Hin. specialize (HE _ Hin). unfold edge_eqb in HE. cbn [fst snd] in *. apply andb_true_iff in HE as [HE _]. apply map_eqb_eq in HE.
      rewrite HE. intros s d1 d2 X1 X2. congruence.
  Qed.

  (** *** numbers *)
  Lemma fill_same_shape : forall (junk : R) (f : list S -> nat -> res (list R)) (g : list S * list R -> res (list R)) (t : tensor S R), wf_tensor t ->
    (forall key b, mfind key (t_blocks t) = Some b -> f key (length b) = g (key, b)) ->
    bind (make_tensor junk (t_names t) (t_edges t) false) (fun r => fill_blocks f r) =
    bind (mapM (fun kb => bind (g kb) (fun d => Ok (fst kb, d))) (t_blocks t)) (fun bs => Ok (mkTensor (t_names t) (mkCore (t_edges t) bs))).
  Proof.
    intros junk f g t W H. destruct (same_shape_ok junk t W) as [r [E1 [Wr [Hn [He Hb]]]]]. unfold same_shape in E1. rewrite E1. cbn [bind].
    unfold fill_blocks. rewrite Hn, He, Hb. unfold junk_blocks, shape. rewrite map_map, mapM_map. f_equal. apply mapM_ext_in. intros [key b] Hin. cbn [fst snd].
    rewrite repeat_length, (H key b); [reflexivity|]. apply In_mfind; auto. apply wf_blocks_sorted. apply W.
  Qed.
  Theorem scalar_number_transform : forall (E : @env R) f (t : tensor S R), wf_tensor t -> scalar_number E f t = Ok (transform f t).
  Proof.
    intros E f t W. unfold scalar_number. rewrite (fill_same_shape _ _ (fun kb => Ok (map f (snd kb)))); auto.
    - cbn [bind]. rewrite (mapM_all_ok _ _ _ (fun kb => (fst kb, map f (snd kb)))); [reflexivity|]. reflexivity.
    - intros key b Hb. rewrite Hb. cbn [at_or_throw bind snd]. unfold loop_a. apply mapM_nth_id.
  Qed.

  (** *** in place *)
  Lemma transpose_env : forall (E E' : @env R) (t : tensor S R) names, wf_tensor t -> Permutation (t_names t) names -> transpose E t names = transpose E' t names.
  Proof.
    intros E E' t names W HP. destruct (transpose_named E t names W HP) as [r [H1 [W1 [N1 [L1 V1]]]]]. destruct (transpose_named E' t names W HP) as [r' [H2 [W2 [N2 [L2 V2]]]]].
    rewrite H1, H2. f_equal. assert (He : t_edges r = t_edges r').
    { apply same_legs_edges; auto; [congruence|]. intros n e H. apply L2. now apply L1. }
    apply tensor_ext_at; auto; [congruence|]. intros pos pt Ha [Hv Hz]. destruct (same_legs_range t r pos pt) as [pt' [A1 [A2 A3]]]; auto.
    assert (Hv' : valid_pt (t_core t) pt') by (split; [exact A2|]; rewrite A3; [exact Hz|now rewrite N1]).
    destruct (V1 pos pt' A1 Hv') as [v [X1 X2]]. destruct (V2 pos pt' A1 Hv') as [v' [Y1 Y2]]. rewrite X2, Y2. congruence.
  Qed.
  Lemma edges_eqb_maps : forall es1 es2 : list (edge S), edges_eqb es1 es2 = true -> maps_of es1 = maps_of es2.
  Proof.
    intros es1 es2 H. unfold edges_eqb in H. apply andb_true_iff in H as [HL H]. revert es2 HL H. induction es1 as [|e1 es1 IH]; intros [|e2 es2] HL H; try discriminate; [reflexivity|].
    cbn [combine forallb fst snd] in H. apply andb_true_iff in H as [H1 H2]. unfold edge_eqb in H1. apply andb_true_iff in H1 as [H1 _]. apply map_eqb_eq in H1.
    cbn [maps_of map]. f_equal; auto. apply IH; auto.
  Qed.
  Lemma edges_eqb_maps_conv : forall es1 es2 : list (edge S), maps_of es1 = maps_of es2 -> (is_fermi = true -> map earrow es1 = map earrow es2) -> edges_eqb es1 es2 = true.
  Proof.
    intros es1 es2 H Ha. unfold edges_eqb. apply andb_true_iff. split.
    - apply Nat.eqb_eq. apply (f_equal (@length _)) in H. unfold maps_of in H. now rewrite !map_length in H.
    - revert es2 H Ha. induction es1 as [|e1 es1 IH]; intros [|e2 es2] H Ha; try discriminate; [reflexivity|]. cbn [maps_of map] in H. injection H as H1 H2.
      cbn [combine forallb fst snd]. rewrite IH; auto.
      + rewrite andb_true_r. unfold edge_eqb. rewrite H1. apply andb_true_iff. split.
        * unfold map_eqb. rewrite Nat.eqb_refl. cbn [andb]. clear - SL. induction (emap e2) as [|[s d] m IH]; [reflexivity|]. cbn [combine forallb fst snd]. now rewrite eqb_refl, Nat.eqb_refl.
        * destruct is_fermi; [|reflexivity]. specialize (Ha eq_refl). cbn [map] in Ha. injection Ha as -> _. cbn. now destruct (earrow e2).
      + intro F. specialize (Ha F). cbn [map] in Ha. now injection Ha.
  Qed.
  Theorem scalar_inplace_same : forall (E E' : @env R) op (t1 t2 : tensor S R), wf_tensor t1 -> wf_tensor t2 -> Permutation (t_names t2) (t_names t1) ->
    (forall n e1 e2, In (n, e1) (tlegs t1) -> In (n, e2) (tlegs t2) -> emap e1 = emap e2 /\ (is_fermi = true -> earrow e1 = earrow e2)) ->
    exists r, scalar_inplace E op t1 t2 = Ok r /\ scalar_op E' op t1 t2 = Ok r /\ t_names r = t_names t1 /\ t_edges r = t_edges t1.
  Proof.
    intros E E' op t1 t2 W1 W2 HP Hl. unfold scalar_inplace, scalar_op. rewrite (Permutation_length HP), Nat.eqb_refl. cbn [negb].
    destruct (aligned_ok E (t_names t1) t2 W2 HP) as [t2' [H2 [W2' [Hn2 [HL2 HV2]]]]].
    assert (H2' : aligned E' (t_names t1) t2 = Ok t2').
    { revert H2. unfold aligned. destruct (names_eqb (t_names t1) (t_names t2)); auto. intro H2. rewrite <- H2. apply (transpose_env E' E); auto. }
    rewrite H2, H2'. cbn [bind].
    assert (HE : edges_eqb (t_edges t1) (t_edges t2') = true).
    { assert (G : forall i e1 e2, nth_error (t_edges t1) i = Some e1 -> nth_error (t_edges t2') i = Some e2 -> emap e1 = emap e2 /\ (is_fermi = true -> earrow e1 = earrow e2)).
      { intros i e1 e2 I1 I2. destruct (nth_same_length _ _ _ _ _ _ (eq_sym (wf_rank _ W1)) I1) as [n Hn]. apply (Hl n).
        - apply (nth_error_In _ i). now apply combine_nth_some.
        - apply HL2. apply (nth_error_In _ i). apply combine_nth_some; auto. congruence. }
      assert (HLE : length (t_edges t1) = length (t_edges t2')) by (rewrite <- (wf_rank _ W1), <- (wf_rank _ W2'); congruence).
      apply edges_eqb_maps_conv.
      - unfold maps_of. apply nth_error_ext. intro i. rewrite !nth_error_map. destruct (nth_error (t_edges t1) i) as [e1|] eqn:I1.
        + destruct (nth_same_length _ _ _ _ _ _ HLE I1) as [e2 I2]. rewrite I2. cbn. f_equal. now apply (G i).
        + apply nth_error_None in I1. rewrite HLE in I1. apply nth_error_None in I1. now rewrite I1.
      - intro F. apply nth_error_ext. intro i. rewrite !nth_error_map. destruct (nth_error (t_edges t1) i) as [e1|] eqn:I1.
        + destruct (nth_same_length _ _ _ _ _ _ HLE I1) as [e2 I2]. rewrite I2. cbn. f_equal. now apply (G i).
        + apply nth_error_None in I1. rewrite HLE in I1. apply nth_error_None in I1. now rewrite I1. }
    rewrite HE. cbn [negb bind]. apply edges_eqb_maps in HE.
    assert (HB : forall key b, mfind key (t_blocks t1) = Some b -> exists b2, mfind key (t_blocks t2') = Some b2 /\ length b2 = length b).
    { intros key b Hb. destruct (wf_find_block _ _ _ (wf_tcore _ W1) Hb) as [Z [ds [D L]]]. fold (t_edges t1) in D. rewrite HE in D.
      destruct (wf_block_find _ _ _ (wf_tcore _ W2') D Z) as [b2 [B2 L2]]. exists b2. split; auto. congruence. }
    rewrite (fill_same_shape _ _ (fun kb => bind (at_or_throw (mfind (fst kb) (t_blocks t2'))) (fun b => loop_ab op (snd kb) b (length (snd kb))))); auto.
    2:{ intros key b Hb. destruct (HB key b Hb) as [b2 [B2 _]]. cbn [fst snd]. rewrite Hb, B2. reflexivity. }
    destruct (mapM_ex _ _ (fun kb => bind (at_or_throw (mfind (fst kb) (t_blocks t2'))) (fun b =>
                          bind (loop_ab op (snd kb) b (length (snd kb))) (fun d => Ok (fst kb, d)))) (fun _ _ => True) (t_blocks t1)) as [bs [Ebs _]].
    { intros [key b] Hin. apply In_mfind in Hin; [|apply wf_blocks_sorted; apply W1]. destruct (HB key b Hin) as [b2 [B2 L2]]. cbn [fst snd]. rewrite B2. cbn [at_or_throw bind].
      destruct (loop_ab_ok op b b2 (length b)) as [l [-> _]]; [lia|lia|]. cbn [bind]. eauto. }
    rewrite Ebs. cbn [bind]. eexists. split; [reflexivity|]. split; [|split; reflexivity].
    erewrite mapM_ext_in; [rewrite Ebs; reflexivity|]. intros [key b] Hin. cbn [fst snd]. now destruct (at_or_throw (mfind key (t_blocks t2'))).
  Qed.

  (** *** set, test, zero *)
  Lemma transform_stored : forall f (t : tensor S R), stored (transform f t) = map f (stored t) /\ map fst (t_blocks (transform f t)) = map fst (t_blocks t).
  Proof.
    intros f t. unfold stored, transform, t_blocks. cbn [t_core c_blocks]. rewrite !map_map. split; [|reflexivity]. cbn [snd]. rewrite concat_map, map_map. reflexivity.
  Qed.
  Lemma generate_length : forall St (g : St -> R * St) n st, length (fst (generate g n st)) = n.
  Proof.
    intros St g n. induction n as [|n IH]; intro st; [reflexivity|]. cbn [generate]. destruct (g st) as [v st1]. specialize (IH st1).
    destruct (generate g n st1) as [l st2]. cbn in *. now rewrite IH.
  Qed.
  Lemma generate_app : forall St (g : St -> R * St) n m st, fst (generate g (n + m) st) = fst (generate g n st) ++ fst (generate g m (snd (generate g n st))).
  Proof.
    intros St g n. induction n as [|n IH]; intros m st; [reflexivity|]. cbn [generate Nat.add]. destruct (g st) as [v st1]. specialize (IH m st1).
    destruct (generate g (n + m) st1) as [l st2]. destruct (generate g n st1) as [l' st3]. cbn in *. now rewrite IH.
  Qed.
  Lemma set_stored : forall St (g : St -> R * St) st (t : tensor S R),
    stored (set_tensor g st t) = fst (generate g (length (stored t)) st) /\ shape (t_blocks (set_tensor g st t)) = shape (t_blocks t).
  Proof.
    intros St g st t. unfold stored, set_tensor, t_blocks. cbn [t_core c_blocks]. generalize (c_blocks (t_core t)) as bs. intro bs. revert st.
    induction bs as [|[k b] bs IH]; intro st; [split; reflexivity|]. cbn [set_blocks]. destruct (generate g (length b) st) as [d st'] eqn:E. cbn [map snd concat shape fst].
    destruct (IH st') as [I1 I2]. rewrite I1. rewrite app_length, generate_app, E. cbn [fst snd]. split; [reflexivity|]. unfold shape in *. cbn [map fst snd]. rewrite I2.
    do 2 f_equal. pose proof (generate_length St g (length b) st) as L. rewrite E in L. exact L.
  Qed.
  Lemma set_wf : forall St (g : St -> R * St) st (t : tensor S R), wf_tensor t -> wf_tensor (set_tensor g st t).
  Proof. intros St g st t W. apply reshape_wf; auto. apply (proj2 (set_stored St g st t)). Qed.
  Lemma test_stored : forall first step (t : tensor S R),
    stored (test_tensor first step t) = map (fun k => Nat.iter k (fun v => radd v step) first) (seq 0 (length (stored t))).
  Proof.
    intros first step t. unfold test_tensor. rewrite (proj1 (set_stored _ _ _ _)).
    assert (G : forall n k, fst (generate (fun v => (v, radd v step)) n (Nat.iter k (fun v => radd v step) first)) = map (fun k => Nat.iter k (fun v => radd v step) first) (seq k n)).
    { induction n as [|n IH]; intro k; [reflexivity|]. cbn [generate seq map]. specialize (IH (Datatypes.S k)).
      change (Nat.iter (Datatypes.S k) (fun v => radd v step) first) with (radd (Nat.iter k (fun v => radd v step) first) step) in IH.
      destruct (generate (fun v => (v, radd v step)) n (radd (Nat.iter k (fun v => radd v step) first) step)) as [l st]. cbn [fst] in *. now rewrite IH. }
    apply (G (length (stored t)) 0).
  Qed.
  Lemma zero_stored : forall t : tensor S R, stored (zero_tensor t) = repeat rzero (length (stored t)).
  Proof.
    intro t. unfold zero_tensor. rewrite (proj1 (transform_stored _ t)). induction (stored t) as [|x l IH]; [reflexivity|]. cbn. now rewrite IH.
  Qed.

  (** *** norms *)
  Section Norms.
    Variables (K : Type) (kzero : K) (kadd : K -> K -> K) (kltb : K -> K -> bool) (ksize : nat -> K).
    Lemma fold_concat : forall (f : K -> R -> K) (bs : list (list S * list R)) k,
      fold_left (fun acc kb => fold_left f (snd kb) acc) bs k = fold_left f (concat (map snd bs)) k.
    Proof. intros f bs. induction bs as [|b bs IH]; intro k; [reflexivity|]. cbn [fold_left map concat]. now rewrite IH, fold_left_app. Qed.
    Lemma norm_power_fold : forall power root (t : tensor S R),
      norm_power K kzero kadd power root t = root (fold_left (fun acc x => kadd acc (power x)) (stored t) kzero).
    Proof. intros. unfold norm_power. now rewrite (fold_concat (fun acc x => kadd acc (power x))). Qed.
    Lemma norm_zero_count : (forall a b, kadd (ksize a) (ksize b) = ksize (a + b)) -> kzero = ksize 0 -> forall t : tensor S R,
      norm_zero K kzero kadd ksize t = ksize (length (stored t)).
    Proof.
      intros H H0 t. unfold norm_zero, stored. rewrite H0.
      assert (G : forall (bs : list (list S * list R)) n, fold_left (fun acc kb => kadd acc (ksize (length (snd kb)))) bs (ksize n) = ksize (n + length (concat (map snd bs)))).
      { induction bs as [|[k b] bs IH]; intro n; cbn [fold_left map concat snd]; [cbn; now rewrite Nat.add_0_r|].
        rewrite H, IH, app_length. f_equal. lia. }
      apply G.
    Qed.
    Lemma norm_max_max : (forall a b c, kltb a b = false -> kltb b c = false -> kltb a c = false) -> (forall a b, kltb a b = true -> kltb b a = false) -> (forall a, kltb a a = false) ->
      forall (abs : R -> K) (t : tensor S R), let m := norm_max K kzero kltb abs t in
      kltb m kzero = false /\ (forall x, In x (stored t) -> kltb m (abs x) = false) /\ (m = kzero \/ exists x, In x (stored t) /\ m = abs x).
    Proof.
      intros Ht Ha Hi abs t. unfold norm_max. rewrite (fold_concat (fun acc x => if kltb acc (abs x) then abs x else acc)). unfold stored. cbv zeta.
      generalize (concat (map snd (t_blocks t))). intro l.
      assert (G : forall k, let m := fold_left (fun acc x => if kltb acc (abs x) then abs x else acc) l k in
        kltb m k = false /\ (forall x, In x l -> kltb m (abs x) = false) /\ (m = k \/ exists x, In x l /\ m = abs x)).
      { induction l as [|a l IH]; intro k; cbn [fold_left]; [cbv zeta; split; [apply Hi|split; [intros x []|now left]]|].
        destruct (IH (if kltb k (abs a) then abs a else k)) as [I1 [I2 I3]]. cbv zeta in *. destruct (kltb k (abs a)) eqn:E.
        - split; [apply (Ht _ (abs a)); auto|]. split; [intros x [<-|Hx]; auto|]. right. destruct I3 as [I3|[x [X1 X2]]]; [exists a; split; [now left|auto]|exists x; split; [now right|auto]].
        - split; auto. split; [intros x [<-|Hx]; auto; apply (Ht _ k); auto|]. destruct I3 as [I3|[x [X1 X2]]]; [now left|right; exists x; split; [now right|auto]]. }
      apply (G kzero).
    Qed.
  End Norms.
End Whole.
