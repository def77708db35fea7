(** Element-wise arithmetic of two tensors. *)
From Coq Require Import String List Bool Arith Lia Sorted Permutation.
From Verif Require Import Base.Outcome Base.SMap Model.Symmetry Model.Edge Model.Core Model.EdgeOperator Model.Elementwise
  Spec.Blocks Spec.Sign Spec.Relabel Spec.Values Proof.SymmetryFacts Proof.LoopFacts Proof.CoreFacts Proof.ConstructFacts Proof.ElemFacts
  Proof.AddressFacts Proof.TableFacts Proof.TransposeTensor Proof.SignFacts Proof.TransposeNames Proof.NamedOperator Proof.MergeFacts Proof.SplitMerged
  Proof.LegFacts Proof.ElementwiseFacts.
Import ListNotations.

Section ScalarOp.
  Context {S R : Type} {SS : Sym S} {SL : SymLaws S} {RR : Scalar R}.
  Notation entry := (S * nat)%type.
  Notation tlegs t := (combine (t_names t) (t_edges t)).

  (** m has the segments of m1 and those of m2 *)
  Definition union_map (m1 m2 m : list entry) : Prop :=
    msorted m /\ forall s, mfind s m = match mfind s m1 with Some d => Some d | None => mfind s m2 end.
  Definition agree (m1 m2 : list entry) : Prop := forall s d1 d2, mfind s m1 = Some d1 -> mfind s m2 = Some d2 -> d1 = d2.

  Lemma map_eqb_eq : forall m1 m2 : list entry, map_eqb m1 m2 = true -> m1 = m2.
  Proof.
    unfold map_eqb. induction m1 as [|[s d] m1 IH]; intros [|[s' d'] m2] H; try reflexivity; try discriminate.
    cbn [length combine forallb fst snd] in H. apply andb_true_iff in H as [H1 H2]. apply andb_true_iff in H2 as [H2 H3]. apply andb_true_iff in H2 as [H2 H4].
    apply eqb_eq in H2. apply Nat.eqb_eq in H4. subst. f_equal. apply IH. apply andb_true_iff. split; auto.
  Qed.

  Lemma union_loop : forall (m2 m1 : list entry), msorted m1 -> msorted m2 -> agree m1 m2 ->
    exists m, foldM (fun m sd => match mfind (fst sd) m with
            | None => Ok (mset (fst sd) (snd sd) m)
            | Some d => if Nat.eqb d (snd sd) then Ok m
                        else tat_error "Try to do scalar operator on two tensors which edges not compatible"%string
            end) m2 m1 = Ok m /\ union_map m1 m2 m.
  Proof.
    induction m2 as [|[s d] m2 IH]; intros m1 H1 H2 Ha.
    - exists m1. split; [reflexivity|]. split; auto. intro s. cbn [mfind]. destruct (mfind s m1); reflexivity.
    - apply msorted_cons_inv in H2 as [H2 Hlt]. cbn [foldM fst snd].
      assert (Hnone : mfind s m2 = None).
      { apply mfind_None. intro Hi. apply Hlt in Hi. now apply lt_irrefl in Hi. }
      destruct (mfind s m1) as [d0|] eqn:E.
      + assert (d0 = d) by (apply (Ha s); auto; cbn [mfind]; now rewrite eqb_refl). subst d0. rewrite Nat.eqb_refl. cbn [bind].
        destruct (IH m1 H1 H2) as [m [F1 [F2 F3]]].
        { intros s' d1 d2 X1 X2. apply (Ha s'); auto. cbn [mfind]. destruct (eqb s' s) eqn:Es; auto. apply eqb_eq in Es. subst. congruence. }
        exists m. split; auto. split; auto. intro s'. rewrite F3. destruct (mfind s' m1) eqn:E'; [reflexivity|]. cbn [mfind].
        destruct (eqb s' s) eqn:Es; auto. apply eqb_eq in Es. subst. congruence.
      + cbn [bind]. destruct (IH (mset s d m1)) as [m [F1 [F2 F3]]]; auto.
        { now apply mset_sorted. }
        { intros s' d1 d2 X1 X2. destruct (ord_dec s' s) as [->|Hn]; [congruence|]. rewrite mfind_mset_other in X1 by auto. apply (Ha s'); auto.
          cbn [mfind]. apply eqb_false in Hn. now rewrite Hn. }
        exists m. split; auto. split; auto. intro s'. rewrite F3. destruct (ord_dec s' s) as [->|Hn].
        * rewrite mfind_mset_same, E. cbn [mfind]. now rewrite eqb_refl.
        * rewrite mfind_mset_other by auto. cbn [mfind]. apply eqb_false in Hn. now rewrite Hn.
  Qed.

  Lemma union_edges : forall es1 es2 : list (edge S), length es1 = length es2 -> sorted_maps (maps_of es1) -> sorted_maps (maps_of es2) ->
    (forall e1 e2, In (e1, e2) (combine es1 es2) -> agree (emap e1) (emap e2)) ->
    exists es, (if edges_eqb es1 es2 then Ok es1 else mapM (fun ee => union_edge (fst ee) (snd ee)) (combine es1 es2)) = Ok es /\
      Forall2 (fun ee e => earrow e = earrow (fst ee) /\ union_map (emap (fst ee)) (emap (snd ee)) (emap e)) (combine es1 es2) es.
  Proof.
    intros es1 es2 HL H1 H2 Ha. destruct (edges_eqb es1 es2) eqn:E.
    - exists es1. split; [reflexivity|]. unfold edges_eqb in E. apply andb_true_iff in E as [_ E]. unfold sorted_maps in *.
      revert es2 HL H1 H2 Ha E. induction es1 as [|e1 es1 IH]; intros [|e2 es2] HL H1 H2 Ha E; try discriminate; [constructor|].
      cbn [combine forallb fst snd map] in *. apply andb_true_iff in E as [E1 E2]. unfold edge_eqb in E1. apply andb_true_iff in E1 as [E1 _]. apply map_eqb_eq in E1.
      inversion H1; inversion H2; subst. constructor.
      + cbn [fst snd]. split; auto. split; auto. intro s. rewrite <- E1. destruct (mfind s (emap e1)); reflexivity.
      + apply IH; auto. intros; apply Ha; auto. now right.
    - clear E. unfold sorted_maps in *. revert es2 HL H1 H2 Ha. induction es1 as [|e1 es1 IH]; intros [|e2 es2] HL H1 H2 Ha; try discriminate.
      + exists []. split; [reflexivity|constructor].
      + cbn [combine map] in *. inversion H1; inversion H2; subst. destruct (union_loop (emap e2) (emap e1)) as [m [F1 F2]]; auto.
        { apply Ha. now left. }
        destruct (IH es2) as [es [G1 G2]]; auto.
        { intros; apply Ha. now right. }
        exists (mkEdge (earrow e1) m :: es). split.
        * cbn [mapM fst snd]. unfold union_edge at 1. rewrite F1. cbn [bind]. rewrite G1. reflexivity.
        * constructor; auto.
  Qed.

  (** dimensions of a key that both tensors have *)
  Lemma dims_union : forall (mm : list (list entry * list entry)) (ms : list (list entry)) key ds,
    Forall2 (fun ab m => union_map (fst ab) (snd ab) m) mm ms -> dims_of ms key = Some ds ->
    (forall ds1, dims_of (map fst mm) key = Some ds1 -> ds1 = ds) /\
    (Forall (fun ab => agree (fst ab) (snd ab)) mm -> forall ds2, dims_of (map snd mm) key = Some ds2 -> ds2 = ds).
  Proof.
    intros mm ms key ds H. revert key ds. induction H as [|[m1 m2] m mm ms [Hs Hu] H IH]; intros [|s key] ds E; try discriminate.
    - split; [|intros _]; intros ? X; cbn in *; congruence.
    - cbn [dims_of map fst snd] in *. destruct (mfind s m) as [d|] eqn:Em; [|discriminate]. destruct (dims_of ms key) as [ds'|] eqn:Ed; [|discriminate].
      injection E as <-. destruct (IH key ds' Ed) as [I1 I2]. rewrite Hu in Em. split.
      + intros ds1 X. destruct (mfind s m1) as [d1|]; [|discriminate]. destruct (dims_of (map fst mm) key) as [x|]; [|discriminate].
        injection X as <-. injection Em as ->. f_equal. now apply I1.
      + intros Ha ds2 X. inversion Ha; subst. destruct (mfind s m2) as [d2|] eqn:E2; [|discriminate]. destruct (dims_of (map snd mm) key) as [x|]; [|discriminate].
        injection X as <-. rewrite (I2 H3 x eq_refl). f_equal. destruct (mfind s m1) as [d1|] eqn:E1; [|congruence]. injection Em as <-. symmetry. apply (H2 s); auto.
  Qed.

  (** a tensor has the block of a coordinate or lacks one of its charges *)
  Lemma dims_of_none : forall (maps : list (list entry)) key, length key = length maps -> dims_of maps key = None ->
    exists i m s, nth_error maps i = Some m /\ nth_error key i = Some s /\ mfind s m = None.
  Proof.
    induction maps as [|m maps IH]; intros [|s key] HL E; try discriminate. cbn [dims_of] in E.
    destruct (mfind s m) eqn:Em.
    - destruct (dims_of maps key) eqn:Ed; [discriminate|]. destruct (IH key) as [i [m' [s' [A [B C]]]]]; auto. exists (Datatypes.S i), m', s'. auto.
    - exists 0, m, s. auto.
  Qed.
  Lemma present_not_lacks : forall (t : tensor S R) pos pt, wf_tensor t -> assigns pos (t_names t) pt -> in_range (maps_of (t_edges t)) pt -> ~ lacks t pos.
  Proof.
    intros t pos pt W Ha Hr [n [e [Hin Hno]]]. destruct (proj1 (leg_range t pos pt W Ha) Hr n e Hin) as [d [D1 _]]. apply Hno. apply (in_map fst) in D1. exact D1.
  Qed.
  Lemma dims_none_lacks : forall (t : tensor S R) pos pt, wf_tensor t -> assigns pos (t_names t) pt -> dims_of (maps_of (t_edges t)) (map fst pt) = None -> lacks t pos.
  Proof.
    intros t pos pt W Ha E. pose proof (assigns_length _ _ _ Ha) as HL. rewrite (wf_rank _ W) in HL.
    destruct (dims_of_none (maps_of (t_edges t)) (map fst pt)) as [i [m [s [A [B C]]]]]; auto; [unfold maps_of; rewrite !map_length; congruence|].
    unfold maps_of in A. rewrite nth_error_map in A. destruct (nth_error (t_edges t) i) as [e|] eqn:Ee; [|discriminate]. injection A as <-.
    destruct (nth_same_length _ _ _ _ _ _ (eq_sym (wf_rank _ W)) Ee) as [n En].
    exists n, e. split; [apply (nth_error_In _ i); now apply combine_nth_some|].
    rewrite nth_error_map in B. destruct (nth_error pt i) as [[s' j]|] eqn:Ep; [|discriminate]. injection B as <-.
    pose proof (assigns_nth _ _ _ _ _ _ Ha En Ep) as Hc. unfold coord. rewrite Hc. cbn [fst]. now apply mfind_None.
  Qed.
  Lemma block_or_lacks : forall (t : tensor S R) pos pt ds, wf_tensor t -> assigns pos (t_names t) pt -> ssum (map fst pt) = szero ->
    (forall ds1, dims_of (maps_of (t_edges t)) (map fst pt) = Some ds1 -> ds1 = ds) -> Forall2 lt (map snd pt) ds ->
    (exists b v, mfind (map fst pt) (t_blocks t) = Some b /\ length b = prod ds /\ nth_error b (row_major ds (map snd pt)) = Some v /\
       const_at t pos = Ok v /\ ~ lacks t pos /\ in_range (maps_of (t_edges t)) pt) \/
    (mfind (map fst pt) (t_blocks t) = None /\ lacks t pos).
  Proof.
    intros t pos pt ds W Ha Hz Hd Hlt.
    destruct (dims_of (maps_of (t_edges t)) (map fst pt)) as [ds1|] eqn:E.
    - left. pose proof (Hd ds1 eq_refl) as ->.
      assert (Hr : in_range (maps_of (t_edges t)) pt) by (apply in_range_dims; [apply (wf_maps _ (wf_tcore _ W))|eauto]).
      destruct (elem_block t pt W (conj Hr Hz)) as [ds' [b [v [X1 [X2 [X3 [X4 [X5 [X6 X7]]]]]]]]]. rewrite E in X1. injection X1 as <-.
      exists b, v. repeat (split; auto). now apply (present_not_lacks t pos pt).
    - right. split; [|now apply (dims_none_lacks t pos pt)].
      destruct (mfind (map fst pt) (t_blocks t)) as [b|] eqn:Eb; [|reflexivity]. destruct (wf_find_block _ _ _ (wf_tcore _ W) Eb) as [_ [ds1 [X _]]].
      unfold t_edges in E. congruence.
  Qed.

  Lemma seq_nth_Forall2 : forall B (P : nat -> B -> Prop) (f : nat -> res B) n l, mapM f (seq 0 n) = Ok l -> (forall j b, f j = Ok b -> P j b) ->
    length l = n /\ forall j b, nth_error l j = Some b -> P j b.
  Proof.
    intros B P f n l H HP. assert (G : forall k n l, mapM f (seq k n) = Ok l -> length l = n /\ forall j b, nth_error l j = Some b -> f (k + j) = Ok b).
    { clear - f. intros k n. revert k. induction n as [|n IH]; intros k l E; cbn [seq mapM] in E.
      - injection E as <-. split; [reflexivity|]. intros [|j] b X; discriminate.
      - destruct (f k) as [a| | |] eqn:Ef; try discriminate. cbn [bind] in E. destruct (mapM f (seq (Datatypes.S k) n)) as [l'| | |] eqn:El; try discriminate.
        injection E as <-. destruct (IH _ _ El) as [I1 I2]. split; [cbn; congruence|]. intros [|j] b X; cbn in X.
        + injection X as <-. now rewrite Nat.add_0_r.
        + rewrite <- Nat.add_succ_comm. auto. }
    destruct (G 0 n l H) as [G1 G2]. split; auto. intros j b X. apply HP. now apply (G2 j).
  Qed.
  Lemma loop_ab_ok : forall op (a b : list R) n, n <= length a -> n <= length b ->
    exists l, loop_ab op a b n = Ok l /\ length l = n /\ forall j, j < n -> exists x y, nth_error a j = Some x /\ nth_error b j = Some y /\ nth_error l j = Some (op x y).
  Proof.
    intros op a b n Ha Hb. unfold loop_ab.
    destruct (mapM_ex _ _ (fun j => bind (get_or_ub (nth_error a j)) (fun x => bind (get_or_ub (nth_error b j)) (fun y => Ok (op x y))))
      (fun _ _ => True) (seq 0 n)) as [l [E _]].
    { intros j Hj. apply in_seq in Hj. destruct (nth_error a j) as [x|] eqn:Ex; [|apply nth_error_None in Ex; lia].
      destruct (nth_error b j) as [y|] eqn:Ey; [|apply nth_error_None in Ey; lia]. eexists. split; [reflexivity|exact I]. }
    exists l. split; auto. destruct (seq_nth_Forall2 R (fun j v => exists x y, nth_error a j = Some x /\ nth_error b j = Some y /\ v = op x y) _ _ _ E) as [L P].
    { intros j v X. destruct (nth_error a j) as [x|] eqn:Ex; [|discriminate]. cbn in X. destruct (nth_error b j) as [y|] eqn:Ey; [|discriminate]. injection X as <-. eauto. }
    split; auto. intros j Hj. destruct (nth_error l j) as [v|] eqn:Ev; [|apply nth_error_None in Ev; lia].
    destruct (P j v Ev) as [x [y [X [Y ->]]]]. eauto.
  Qed.
  Lemma loop_a_ok : forall f (a : list R) n, n <= length a ->
    exists l, loop_a f a n = Ok l /\ length l = n /\ forall j, j < n -> exists x, nth_error a j = Some x /\ nth_error l j = Some (f x).
  Proof.
    intros f a n Ha. unfold loop_a.
    destruct (mapM_ex _ _ (fun j => bind (get_or_ub (nth_error a j)) (fun x => Ok (f x))) (fun _ _ => True) (seq 0 n)) as [l [E _]].
    { intros j Hj. apply in_seq in Hj. destruct (nth_error a j) as [x|] eqn:Ex; [|apply nth_error_None in Ex; lia]. eexists. split; [reflexivity|exact I]. }
    exists l. split; auto. destruct (seq_nth_Forall2 R (fun j v => exists x, nth_error a j = Some x /\ v = f x) _ _ _ E) as [L P].
    { intros j v X. destruct (nth_error a j) as [x|] eqn:Ex; [|discriminate]. injection X as <-. eauto. }
    split; auto. intros j Hj. destruct (nth_error l j) as [v|] eqn:Ev; [|apply nth_error_None in Ev; lia].
    destruct (P j v Ev) as [x [X ->]]. eauto.
  Qed.

  (** ** alignment of the second operand *)
  Lemma aligned_ok : forall (E : @env R) names (t2 : tensor S R), wf_tensor t2 -> Permutation (t_names t2) names ->
    exists t2', aligned E names t2 = Ok t2' /\ wf_tensor t2' /\ t_names t2' = names /\
      (forall n e, In (n, e) (tlegs t2') <-> In (n, e) (tlegs t2)) /\
      forall pos pt, assigns pos names pt -> valid_pt (t_core t2') pt ->
        exists v, const_at t2 pos = Ok v /\ const_at t2' pos = Ok (signed ropp (exchanged_odd (leg_odd pos) (t_names t2) names) v).
  Proof.
    intros E names t2 W HP. unfold aligned. destruct (names_eqb names (t_names t2)) eqn:En.
    - apply names_eqb_eq in En. subst names. exists t2. split; [reflexivity|]. split; auto. split; auto. split; [reflexivity|].
      intros pos pt Ha Hv. destruct (const_at_elem t2 pos pt W Ha Hv) as [v [_ E2]]. exists v. split; auto. rewrite exchanged_self by apply W. exact E2.
    - destruct (transpose_named E t2 names W HP) as [r [Hr [Wr [Hn [He Hc]]]]]. exists r. split; auto. split; auto. split; auto. split; auto.
      intros pos pt Ha [Hv Hz]. destruct (same_legs_range t2 r pos pt) as [pt' [A1 [A2 A3]]]; auto; [now rewrite Hn|].
      apply (Hc pos pt' A1). split; [exact A2|]. rewrite A3; [exact Hz|]. now rewrite Hn.
  Qed.
  (** ** the whole operation *)
  Lemma compatible_agree : forall t1 t2 : tensor S R, wf_tensor t1 -> wf_tensor t2 -> t_names t1 = t_names t2 -> compatible t1 t2 ->
    forall e1 e2, In (e1, e2) (combine (t_edges t1) (t_edges t2)) -> agree (emap e1) (emap e2).
  Proof.
    intros t1 t2 W1 W2 Hn Hc e1 e2 Hin s d1 d2 X1 X2. apply In_nth_error in Hin as [i Hi]. apply combine_nth_inv in Hi as [I1 I2].
    destruct (nth_same_length _ _ _ _ _ _ (eq_sym (wf_rank _ W1)) I1) as [n In1]. assert (In2 := In1). rewrite Hn in In2.
    apply (Hc n e1 e2 s).
    - apply (nth_error_In _ i). now apply combine_nth_some.
    - apply (nth_error_In _ i). now apply combine_nth_some.
    - now apply mfind_In in X1.
    - now apply mfind_In in X2.
  Qed.
  Lemma compatible_legs : forall t1 t2 t2' : tensor S R, (forall n e, In (n, e) (tlegs t2') <-> In (n, e) (tlegs t2)) -> compatible t1 t2 -> compatible t1 t2'.
  Proof. intros t1 t2 t2' H Hc n e1 e2 s d1 d2 X1 X2. apply (Hc n e1 e2 s d1 d2 X1). now apply H. Qed.
  Lemma lacks_legs : forall (t2 t2' : tensor S R) pos, (forall n e, In (n, e) (tlegs t2') <-> In (n, e) (tlegs t2)) -> lacks t2' pos -> lacks t2 pos.
  Proof. intros t2 t2' pos H [n [e [X1 X2]]]. exists n, e. split; auto. now apply H. Qed.

  Definition op_or_zero (op : R -> R -> R) (t1 t2 : tensor S R) pos (v1 v2 w : R) : Prop :=
    (lacks t1 pos /\ lacks t2 pos -> w = rzero) /\ (~ (lacks t1 pos /\ lacks t2 pos) -> w = op v1 v2).

  Theorem scalar_op_at : forall (E : @env R) op (t1 t2 : tensor S R), wf_tensor t1 -> wf_tensor t2 ->
    Permutation (t_names t2) (t_names t1) -> compatible t1 t2 ->
    exists r, scalar_op E op t1 t2 = Ok r /\ wf_tensor r /\ t_names r = t_names t1 /\
      (forall n e e1, In (n, e) (tlegs r) -> In (n, e1) (tlegs t1) -> earrow e = earrow e1) /\
      (forall n e s d, In (n, e) (tlegs r) -> In (s, d) (emap e) ->
         exists e', (In (n, e') (tlegs t1) \/ In (n, e') (tlegs t2)) /\ In (s, d) (emap e')) /\
      forall pos, common_coordinate t1 t2 pos -> exists v1 v2 w, value_or_zero t1 pos v1 /\
        signed_value_or_zero (exchanged_odd (leg_odd pos) (t_names t2) (t_names t1)) t2 pos v2 /\
        const_at r pos = Ok w /\ op_or_zero op t1 t2 pos v1 v2 w.
  Proof.
    intros E op t1 t2 W1 W2 HP Hc. unfold scalar_op. rewrite (Permutation_length HP), Nat.eqb_refl. cbn [negb].
    destruct (aligned_ok E (t_names t1) t2 W2 HP) as [t2' [-> [W2' [Hn2 [HL2 HV2]]]]]. cbn [bind].
    assert (HC : forall e1 e2, In (e1, e2) (combine (t_edges t1) (t_edges t2')) -> agree (emap e1) (emap e2)).
    { apply compatible_agree; auto. now apply (compatible_legs t1 t2). }
    assert (HLE : length (t_edges t1) = length (t_edges t2')) by (rewrite <- (wf_rank _ W1), <- (wf_rank _ W2'); congruence).
    destruct (union_edges (t_edges t1) (t_edges t2')) as [es [-> HU]]; auto; [apply (wf_maps _ (wf_tcore _ W1))|apply (wf_maps _ (wf_tcore _ W2'))|]. cbn [bind].
    assert (HLes : length es = length (t_edges t1)) by (apply Forall2_len in HU; rewrite combine_length in HU; lia).
    assert (Hses : sorted_maps (maps_of es)).
    { unfold sorted_maps, maps_of. apply Forall_map. clear - HU. induction HU as [|? ? ? ? [_ [H _]] HU IH]; constructor; auto. }
    destruct (make_tensor_ok (env_junk E) (t_names t1) es false Hses (wf_nodup _ W1)) as [r0 [-> [Wr0 [Nr0 [Br0 Er0]]]]]; [rewrite (wf_rank _ W1); congruence|].
    cbn [bind]. rewrite andb_false_r in Er0.
    assert (HU2 : Forall2 (fun ab m => union_map (fst ab) (snd ab) m) (combine (maps_of (t_edges t1)) (maps_of (t_edges t2'))) (maps_of es)).
    { clear - HU. unfold maps_of. revert HU. generalize (t_edges t1) (t_edges t2'). intros l1 l2. revert l2 es.
      induction l1 as [|a l1 IH]; intros [|b l2] es HU; cbn in *; inversion HU; subst; constructor; cbn in *; [tauto|auto]. }
    assert (HA2 : Forall (fun ab => agree (fst ab) (snd ab)) (combine (maps_of (t_edges t1)) (maps_of (t_edges t2')))).
    { clear - HC. unfold maps_of. revert HC. generalize (t_edges t1) (t_edges t2'). induction l as [|a l IH]; intros [|b l2] HC; cbn in *; constructor.
      - cbn. apply HC. now left.
      - apply IH. intros; apply HC. now right. }
    assert (HLm : length (maps_of (t_edges t1)) = length (maps_of (t_edges t2'))) by (unfold maps_of; rewrite !map_length; exact HLE).
    assert (HD1 : forall key ds, dims_of (maps_of es) key = Some ds -> forall ds1, dims_of (maps_of (t_edges t1)) key = Some ds1 -> ds1 = ds).
    { intros key ds D ds1 D1. apply (proj1 (dims_union _ _ key ds HU2 D) ds1). now rewrite combine_map_fst. }
    assert (HD2 : forall key ds, dims_of (maps_of es) key = Some ds -> forall ds2, dims_of (maps_of (t_edges t2')) key = Some ds2 -> ds2 = ds).
    { intros key ds D ds2 D2. apply (proj2 (dims_union _ _ key ds HU2 D) HA2 ds2). now rewrite combine_map_snd. }
    assert (HK : forall key b, mfind key (t_blocks r0) = Some b -> exists ds, dims_of (maps_of es) key = Some ds /\ length b = prod ds).
    { intros key b Hb. assert (Hin : In key (map fst (junk_blocks (env_junk E) (block_list (maps_of es))))).
      { rewrite <- Br0. apply mfind_In in Hb. apply (in_map fst) in Hb. exact Hb. }
      destruct (wf_find_block _ _ _ (wf_tcore _ Wr0) Hb) as [_ [ds [D L]]]. fold (t_edges r0) in D. rewrite Er0, prune_dims_block in D by exact Hin. eauto. }
    assert (HB : forall (t : tensor S R), wf_tensor t -> (forall key ds, dims_of (maps_of es) key = Some ds -> forall ds1, dims_of (maps_of (t_edges t)) key = Some ds1 -> ds1 = ds) ->
      forall key b a, mfind key (t_blocks r0) = Some b -> mfind key (t_blocks t) = Some a -> length a = length b).
    { intros t W HD key b a Hb Ha. destruct (HK key b Hb) as [ds [D L]]. destruct (wf_find_block _ _ _ (wf_tcore _ W) Ha) as [_ [ds1 [D1 L1]]].
      rewrite (HD key ds D ds1 D1) in L1. congruence. }
    destruct (fill_blocks_ok (fun key n => scalar_block op (mfind key (t_blocks t1)) (mfind key (t_blocks t2')) n) r0 Wr0) as [r [Er [Wr [Nr [Edr Hr]]]]].
    { intros key b Hin. apply In_mfind in Hin; [|apply wf_blocks_sorted; apply Wr0]. fold (t_blocks r0) in Hin.
      pose proof (fun a => HB t1 W1 HD1 key b a Hin) as L1. pose proof (fun a => HB t2' W2' HD2 key b a Hin) as L2.
      unfold scalar_block. destruct (mfind key (t_blocks t1)) as [a1|]; destruct (mfind key (t_blocks t2')) as [a2|].
      - destruct (loop_ab_ok op a1 a2 (length b)) as [l [Hl [Ll _]]]; [rewrite (L1 a1); auto|rewrite (L2 a2); auto|]. eauto.
      - destruct (loop_a_ok (fun x => op x rzero) a1 (length b)) as [l [Hl [Ll _]]]; [rewrite (L1 a1); auto|]. eauto.
      - destruct (loop_a_ok (fun x => op rzero x) a2 (length b)) as [l [Hl [Ll _]]]; [rewrite (L2 a2); auto|]. eauto.
      - eexists. split; [reflexivity|]. apply repeat_length. }
    exists r. split; [exact Er|]. split; [exact Wr|]. split; [congruence|].
    assert (HLeg : forall n e, In (n, e) (tlegs r) -> exists e0 e1 e2, In (n, e1) (tlegs t1) /\ In (n, e2) (tlegs t2) /\
      earrow e0 = earrow e1 /\ union_map (emap e1) (emap e2) (emap e0) /\ earrow e = earrow e0 /\ incl (emap e) (emap e0)).
    { intros n e Hl. rewrite Nr, Nr0, Edr, Er0 in Hl. apply In_nth_error in Hl as [i Hi]. apply combine_nth_inv in Hi as [I1 I2].
      assert (G : forall (bs : list (list S * list R)) es k i e, nth_error (prune_from bs k es) i = Some e -> exists e0, nth_error es i = Some e0 /\ earrow e = earrow e0 /\ incl (emap e) (emap e0)).
      { clear. intros bs es. induction es as [|x es IH]; intros k [|i] e H; cbn in H; try discriminate.
        - injection H as <-. exists x. cbn. split; auto. split; auto. intros y Hy. apply filter_In in Hy. tauto.
        - apply IH in H. exact H. }
      destruct (G _ _ _ _ _ I2) as [e0 [J1 [J2 J3]]].
      assert (G2 : forall (l1 l2 : list (edge S)) es i e0, Forall2 (fun ee e => earrow e = earrow (fst ee) /\ union_map (emap (fst ee)) (emap (snd ee)) (emap e)) (combine l1 l2) es ->
        nth_error es i = Some e0 -> exists e1 e2, nth_error l1 i = Some e1 /\ nth_error l2 i = Some e2 /\ earrow e0 = earrow e1 /\ union_map (emap e1) (emap e2) (emap e0)).
      { clear. induction l1 as [|a l1 IH]; intros [|b l2] es i e0 H X; cbn in H; inversion H; subst; destruct i as [|i]; try discriminate; cbn in X.
        - injection X as <-. exists a, b. cbn in *. tauto.
        - destruct (IH _ _ _ _ H4 X) as [e1 [e2 K]]. exists e1, e2. exact K. }
      destruct (G2 _ _ _ _ _ HU J1) as [e1 [e2 [K1 [K2 [K3 K4]]]]]. exists e0, e1, e2. split; [|split; [|auto]].
      - apply (nth_error_In _ i). now apply combine_nth_some.
      - apply HL2. apply (nth_error_In _ i). apply combine_nth_some; auto. now rewrite Hn2. }
    split.
    { intros n e e1 Hl Hl1. destruct (HLeg n e Hl) as [e0 [e1' [e2 [A [B [C [D [F _]]]]]]]]. rewrite (leg_unique t1 n e1 e1' W1 Hl1 A). congruence. }
    split.
    { intros n e s d Hl Hs. destruct (HLeg n e Hl) as [e0 [e1 [e2 [A [B [C [[Ds Du] [F I]]]]]]]]. apply I in Hs. apply In_mfind in Hs; auto. rewrite Du in Hs.
      destruct (mfind s (emap e1)) as [d1|] eqn:E1.
      - injection Hs as ->. exists e1. split; auto. now apply mfind_In.
      - exists e2. split; auto. now apply mfind_In. }
    intros pos [Hcc Hz]. set (pt := map (coord pos) (t_names t1)).
    assert (Ha1 : assigns pos (t_names t1) pt).
    { unfold assigns, pt. rewrite map_map. apply map_ext_in. intros n Hn. destruct (Hcc n Hn) as [s [i [Hm _]]]. unfold coord. now rewrite Hm. }
    assert (Hz' : ssum (map fst pt) = szero) by (unfold pt; rewrite map_map; exact Hz).
    assert (HR : in_range (maps_of es) pt).
    { apply in_range_dims; [exact Hses|]. unfold pt.
      assert (G : forall i n e1 e2 e, nth_error (t_names t1) i = Some n -> nth_error (t_edges t1) i = Some e1 -> nth_error (t_edges t2') i = Some e2 -> nth_error es i = Some e ->
        exists d, mfind (fst (coord pos n)) (emap e) = Some d /\ snd (coord pos n) < d).
      { intros i n e1 e2 e Hn H1 H2 H3. destruct (Hcc n (nth_error_In _ _ Hn)) as [s [k [Hm [e' [d [He' [Hd Hlt]]]]]]]. exists d. unfold coord. rewrite Hm. cbn [fst snd]. split; auto.
        assert (L1 : In (n, e1) (tlegs t1)) by (apply (nth_error_In _ i); now apply combine_nth_some).
        assert (L2 : In (n, e2) (tlegs t2)) by (apply HL2; apply (nth_error_In _ i); apply combine_nth_some; auto; now rewrite Hn2).
        assert (G2 : forall (l1 l2 : list (edge S)) es i e1 e2 e0, Forall2 (fun ee e => earrow e = earrow (fst ee) /\ union_map (emap (fst ee)) (emap (snd ee)) (emap e)) (combine l1 l2) es ->
          nth_error l1 i = Some e1 -> nth_error l2 i = Some e2 -> nth_error es i = Some e0 -> union_map (emap e1) (emap e2) (emap e0)).
        { clear. induction l1 as [|a l1 IH]; intros [|b l2] es [|i] e1 e2 e0 H X1 X2 X3; cbn in H; inversion H; subst; try discriminate; cbn in *.
          - injection X1 as <-. injection X2 as <-. injection X3 as <-. tauto.
          - eapply IH; eauto. }
        destruct (G2 _ _ _ _ _ _ _ HU H1 H2 H3) as [_ Hu]. rewrite Hu. destruct He' as [He'|He'].
        - pose proof (leg_unique t1 n e' e1 W1 He' L1) as ->. rewrite (In_mfind _ _ _ (leg_sorted t1 n e1 W1 L1) Hd). reflexivity.
        - pose proof (leg_unique t2 n e' e2 W2 He' L2) as ->. destruct (mfind s (emap e1)) as [d1|] eqn:Ed1; [|apply In_mfind; auto; now apply (leg_sorted t2 n e2)].
          f_equal. apply (Hc n e1 e2 s d1 d L1 L2); auto. now apply mfind_In. }
      assert (HLn : length (t_names t1) = length (t_edges t1)) by apply W1.
      clear - G HLes HLE HLn. revert G HLes HLE HLn. generalize (t_names t1) as ns, (t_edges t1) as l1, (t_edges t2') as l2. revert es.
      induction es as [|e es IH]; intros [|n ns] [|e1 l1] [|e2 l2] G H1 H2 H3; try discriminate; cbn [map maps_of dims_of].
      - exists []. split; [reflexivity|constructor].
      - destruct (G 0 n e1 e2 e eq_refl eq_refl eq_refl eq_refl) as [d [D1 D2]]. cbn [map fst]. rewrite D1.
        destruct (IH ns l1 l2) as [ds [I1 I2]]; try (cbn in *; lia); [intros i; apply (G (Datatypes.S i))|]. unfold maps_of in I1. rewrite I1.
        exists (d :: ds). split; [reflexivity|]. constructor; auto. }
    assert (HR2 := HR). apply in_range_dims in HR2 as [ds [Hds Hlt]]; [|exact Hses].
    assert (HinK : In (map fst pt) (map fst (junk_blocks (env_junk E) (block_list (maps_of es))))).
    { rewrite junk_keys. change (map fst pt) with (fst (map fst pt, prod ds)). apply in_map. apply in_block_list. split; auto. apply dims_of_choice; eauto. }
    assert (Hvr : valid_pt (t_core r) pt).
    { split; [|exact Hz']. fold (t_edges r). rewrite Edr, Er0. now apply prune_range. }
    destruct (elem_block r pt Wr Hvr) as [ds' [b [w [R1 [R2 [R3 [R4 [R5 [R6 R7]]]]]]]]].
    assert (ds' = ds) by (rewrite Edr, Er0, prune_dims_block, Hds in R1 by exact HinK; congruence). subst ds'.
    assert (Hb0 : exists b0, mfind (map fst pt) (t_blocks r0) = Some b0).
    { destruct (mfind (map fst pt) (t_blocks r0)) as [b0|] eqn:E0; [eauto|]. exfalso. apply mfind_None in E0. apply E0. now rewrite Br0. }
    destruct Hb0 as [b0 Hb0]. destruct (Hr _ _ Hb0) as [d [Hd [Ld Fd]]]. rewrite R3 in Fd. injection Fd as <-. 
    assert (Ha1r : assigns pos (t_names r) pt) by (now rewrite Nr, Nr0).
    assert (Ha2 : assigns pos (t_names t2') pt) by (now rewrite Hn2).
    destruct (block_or_lacks t1 pos pt ds W1 Ha1 Hz' (HD1 _ _ Hds) Hlt) as [[a1 [v1 [P1 [P2 [P3 [P4 [P5 P6]]]]]]]|[P1 P5]];
    destruct (block_or_lacks t2' pos pt ds W2' Ha2 Hz' (HD2 _ _ Hds) Hlt) as [[a2 [v2 [Q1 [Q2 [Q3 [Q4 [Q5 Q6]]]]]]]|[Q1 Q5]];
    rewrite P1, Q1 in Hd; cbn [scalar_block] in Hd.
    - destruct (loop_ab_ok op a1 a2 (length b0)) as [l [Hl [Ll Pl]]]; [lia|lia|]. rewrite Hl in Hd. injection Hd as ->.
      destruct (Pl (row_major ds (map snd pt))) as [x [y [X [Y Z]]]]; [lia|]. rewrite P3 in X. injection X as <-. rewrite Q3 in Y. injection Y as <-. rewrite R6 in Z. injection Z as ->.
      destruct (HV2 pos pt Ha1 (conj Q6 Hz')) as [u [U1 U2]]. rewrite Q4 in U2. injection U2 as ->.
      exists v1, (signed ropp (exchanged_odd (leg_odd pos) (t_names t2) (t_names t1)) u), (op v1 (signed ropp (exchanged_odd (leg_odd pos) (t_names t2) (t_names t1)) u)).
      split; [left; auto|]. split; [left; exists u; repeat split; auto; intro X; apply Q5; revert X; apply (lacks_legs t2' t2); intros; symmetry; apply HL2|].
      split; [now apply R7|]. split; [tauto|reflexivity].
    - destruct (loop_a_ok (fun x => op x rzero) a1 (length b0)) as [l [Hl [Ll Pl]]]; [lia|]. rewrite Hl in Hd. injection Hd as ->.
      destruct (Pl (row_major ds (map snd pt))) as [x [X Z]]; [lia|]. rewrite P3 in X. injection X as <-. rewrite R6 in Z. injection Z as ->.
      exists v1, rzero, (op v1 rzero). apply (lacks_legs t2 t2' pos HL2) in Q5.
      split; [left; auto|]. split; [right; auto|]. split; [now apply R7|]. split; [tauto|reflexivity].
    - destruct (loop_a_ok (fun x => op rzero x) a2 (length b0)) as [l [Hl [Ll Pl]]]; [lia|]. rewrite Hl in Hd. injection Hd as ->.
      destruct (Pl (row_major ds (map snd pt))) as [x [X Z]]; [lia|]. rewrite Q3 in X. injection X as <-. rewrite R6 in Z. injection Z as ->.
      destruct (HV2 pos pt Ha1 (conj Q6 Hz')) as [u [U1 U2]]. rewrite Q4 in U2. injection U2 as ->.
      assert (Q5' : ~ lacks t2 pos) by (intro X; apply Q5; revert X; apply (lacks_legs t2' t2); intros; symmetry; apply HL2).
      eexists rzero, _, _. split; [right; auto|]. split; [left; exists u; repeat split; auto|]. split; [now apply R7|]. split; [tauto|reflexivity].
    - injection Hd as Hd. rewrite <- Hd in R6. exists rzero, rzero, w. apply (lacks_legs t2 t2' pos HL2) in Q5.
      split; [right; auto|]. split; [right; auto|]. split; [now apply R7|]. split; [|tauto]. intros _.
      apply nth_error_In in R6. now apply repeat_spec in R6.
  Qed.
End ScalarOp.
