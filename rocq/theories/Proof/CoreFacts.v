(** Structure of constructed cores: blocks, pruning, element addresses. *)
From Coq Require Import List Bool Arith Lia Sorted.
From Verif Require Import Base.Outcome Base.SMap Model.Symmetry Model.Edge Model.Core
  Spec.Blocks Proof.SymmetryFacts Proof.LoopFacts.
Import ListNotations.

Lemma msorted_In_ext : forall K V (OK : Ord K) (OL : OrdLaws K) (m1 m2 : list (K * V)),
  msorted m1 -> msorted m2 -> (forall k v, In (k, v) m1 <-> In (k, v) m2) -> m1 = m2.
Proof.
  intros K V OK OL m1 m2 H1 H2 H. apply msorted_ext; auto.
  intro k. destruct (mfind k m1) eqn:E1.
  - symmetry. apply In_mfind; auto. apply H. now apply mfind_In.
  - destruct (mfind k m2) eqn:E2; auto.
    apply mfind_In in E2. apply H in E2. apply In_mfind in E2; auto. congruence.
Qed.

Section Keys.
  Context {S : Type} {SS : Sym S} {SL : SymLaws S}.
  Notation entry := (S * nat)%type.

  Definition sorted_maps (maps : list (list entry)) : Prop := Forall msorted maps.

  Lemma tuples_keys_sorted : forall maps : list (list entry), sorted_maps maps ->
    StronglySorted (fun a b => cmp a b = Lt) (map (map fst) (tuples maps)).
  Proof.
    induction maps as [|m ms IH]; intro H.
    - simpl. constructor; constructor.
    - inversion H as [|? ? Hm Hms]; subst. specialize (IH Hms). simpl.
      clear H Hms. induction m as [|[s d] m IHm]; simpl; [constructor|].
      apply msorted_cons_inv in Hm as [Hm Hlt].
      rewrite map_app.
      assert (HA : StronglySorted (fun a b => cmp a b = Lt) (map (map fst) (map (cons (s, d)) (tuples ms)))).
      { clear - IH SL. induction (tuples ms) as [|t ts IHt]; simpl in *; constructor.
        - apply IHt. now inversion IH.
        - inversion IH as [|? ? _ HF]; subst. rewrite Forall_forall in *. intros x Hx.
          rewrite map_map in Hx. apply in_map_iff in Hx as [t' [<- Ht']]. simpl.
          rewrite cmp_refl. apply HF. now apply in_map. }
      assert (HB : Forall (fun a => Forall (fun b => cmp a b = Lt)
          (map (map fst) (flat_map (fun x => map (cons x) (tuples ms)) m)))
          (map (map fst) (map (cons (s, d)) (tuples ms)))).
      { apply Forall_forall. intros a Ha. apply Forall_forall. intros b Hb.
        rewrite map_map in Ha. apply in_map_iff in Ha as [ta [<- Hta]].
        apply in_map_iff in Hb as [tb [<- Htb]]. apply in_flat_map in Htb as [[s2 d2] [Hx Hxb]].
        apply in_map_iff in Hxb as [tb' [<- _]]. simpl.
        rewrite (Hlt s2); auto. change s2 with (fst (s2, d2)). now apply in_map. }
      specialize (IHm Hm).
      revert HA HB. generalize (map (map fst) (map (cons (s, d)) (tuples ms))) as l1.
      induction l1 as [|a l1 IHl]; simpl; intros HA HB; auto.
      inversion HA; subst. inversion HB; subst. constructor; auto.
      apply Forall_app. split; auto.
  Qed.

  Lemma StronglySorted_filter_map : forall A B (P : B -> B -> Prop) (f : A -> B) (g : A -> bool) l,
    StronglySorted P (map f l) -> StronglySorted P (map f (filter g l)).
  Proof.
    induction l as [|a l IH]; simpl; intro H; auto. inversion H; subst.
    destruct (g a); simpl; auto. constructor; auto.
    rewrite Forall_forall in *. intros x Hx. apply H3.
    apply in_map_iff in Hx as [y [<- Hy]]. apply in_map. now apply filter_In in Hy.
  Qed.

  Lemma block_list_sorted : forall maps : list (list entry), sorted_maps maps -> msorted (block_list maps).
  Proof.
    intros maps H. unfold msorted, block_list. rewrite map_map. simpl.
    apply StronglySorted_filter_map. now apply tuples_keys_sorted.
  Qed.

  Lemma choice_tuple : forall (maps : list (list entry)) key n,
    choice maps key n <-> exists t, In t (tuples maps) /\ key = map fst t /\ n = prod (map snd t).
  Proof.
    intros maps key n. split.
    - induction 1 as [|m ms s d key n Hin Hc [t [Ht [-> ->]]]].
      + exists []. simpl. auto.
      + exists ((s, d) :: t). repeat split. simpl. apply in_flat_map. exists (s, d). split; auto. now apply in_map.
    - intros [t [Ht [-> ->]]]. apply in_tuples in Ht. induction Ht as [|m [s d] ms t Hx Ht IH]; simpl.
      + constructor.
      + now constructor.
  Qed.

  Lemma in_block_list : forall (maps : list (list entry)) key n,
    In (key, n) (block_list maps) <-> choice maps key n /\ ssum key = szero.
  Proof.
    intros maps key n. unfold block_list. rewrite in_map_iff, choice_tuple. split.
    - intros [t [E Ht]]. apply filter_In in Ht as [Ht Hz]. apply zero_sum_true in Hz.
      unfold block_of in E. injection E as <- <-. eauto.
    - intros [[t [Ht [-> ->]]] Hz]. exists t. split; auto. apply filter_In. split; auto. now apply zero_sum_true.
  Qed.

  Lemma choice_length : forall (maps : list (list entry)) key n, choice maps key n -> length key = length maps.
  Proof. induction 1; simpl; congruence. Qed.
  Lemma choice_nth : forall (maps : list (list entry)) key n, choice maps key n ->
    forall i m s, nth_error maps i = Some m -> nth_error key i = Some s -> exists d, In (s, d) m.
  Proof.
    induction 1; intros [|i] m0 s0 E1 E2; simpl in *; try discriminate.
    - injection E1 as <-. injection E2 as <-. eauto.
    - eauto.
  Qed.

  (** ** dimensions of a key *)
  Fixpoint dims_of (maps : list (list entry)) (key : list S) : option (list nat) :=
    match maps, key with
    | [], [] => Some []
    | m :: ms, s :: ss =>
        match mfind s m, dims_of ms ss with
        | Some d, Some ds => Some (d :: ds)
        | _, _ => None
        end
    | _, _ => None
    end.
  Lemma dims_of_choice : forall (maps : list (list entry)) key n, sorted_maps maps ->
    (choice maps key n <-> exists ds, dims_of maps key = Some ds /\ n = prod ds).
  Proof.
    induction maps as [|m ms IH]; intros key n H; split.
    - intro C. inversion C; subst. exists []. auto.
    - intros [ds [E ->]]. destruct key; [|discriminate]. injection E as <-. constructor.
    - intro C. inversion C as [|? ? s d key' n' Hin C']; subst. inversion H; subst.
      apply IH in C' as [ds [E ->]]; auto. simpl. rewrite (In_mfind _ _ _ H2 Hin), E.
      eexists. split; eauto.
    - intros [ds [E ->]]. destruct key as [|s key]; [discriminate|]. simpl in E.
      destruct (mfind s m) as [d|] eqn:Ed; [|discriminate].
      destruct (dims_of ms key) as [ds'|] eqn:Eds; [|discriminate]. injection E as <-.
      simpl. constructor; [now apply mfind_In|]. inversion H; subst. apply IH; eauto.
  Qed.
  Lemma dims_of_length : forall (maps : list (list entry)) key ds, dims_of maps key = Some ds ->
    length ds = length maps /\ length key = length maps.
  Proof.
    induction maps as [|m ms IH]; intros [|s key] ds E; simpl in E; try discriminate.
    - injection E as <-. auto.
    - destruct (mfind s m); [|discriminate]. destruct (dims_of ms key) eqn:E2; [|discriminate].
      injection E as <-. apply IH in E2 as [E3 E4]. simpl. auto.
  Qed.
  Lemma in_range_dims : forall (maps : list (list entry)) pt, sorted_maps maps ->
    (in_range maps pt <-> exists ds, dims_of maps (map fst pt) = Some ds /\ Forall2 lt (map snd pt) ds).
  Proof.
    induction maps as [|m ms IH]; intros pt H; split.
    - intro C. inversion C; subst. exists []. split; [reflexivity|constructor].
    - intros [ds [E F]]. destruct pt; [constructor|discriminate].
    - intro C. inversion C as [|? ? s i d pt' Hin Hlt C']; subst. inversion H; subst.
      apply IH in C' as [ds [E F]]; auto. simpl. rewrite (In_mfind _ _ _ H2 Hin), E.
      eexists. split; eauto.
    - intros [ds [E F]]. destruct pt as [|[s i] pt]; [discriminate|]. simpl in *.
      destruct (mfind s m) as [d|] eqn:Ed; [|discriminate].
      destruct (dims_of ms (map fst pt)) as [ds'|] eqn:Eds; [|discriminate]. injection E as <-.
      inversion F; subst. inversion H; subst.
      econstructor; [apply mfind_In; eauto| auto |]. apply IH; eauto.
  Qed.
End Keys.

Section CoreFacts.
  Context {S R : Type} {SS : Sym S} {SL : SymLaws S} {RR : Scalar R}.
  Notation entry := (S * nat)%type.

  Definition maps_of (es : list (edge S)) : list (list entry) := map emap es.
  Definition shape (blocks : list (list S * list R)) : list (list S * nat) :=
    map (fun kb => (fst kb, length (snd kb))) blocks.

  Record wf_core (c : core S R) : Prop := {
    wf_maps : sorted_maps (maps_of (c_edges c));
    wf_shape : shape (c_blocks c) = block_list (maps_of (c_edges c));
    wf_pruned : forall i e s, nth_error (c_edges c) i = Some e -> In s (map fst (emap e)) ->
      exists key, In key (map fst (c_blocks c)) /\ nth_error key i = Some s }.

  Record wf_tensor (t : tensor S R) : Prop := {
    wf_tcore : wf_core (t_core t);
    wf_nodup : NoDup (t_names t);
    wf_rank : length (t_names t) = length (t_edges t) }.

  Lemma shape_keys : forall blocks, map fst (shape blocks) = map fst blocks.
  Proof. intros. unfold shape. rewrite map_map. reflexivity. Qed.

  Lemma used_in_true : forall (blocks : list (list S * list R)) i s,
    used_in blocks i s = true <-> exists key, In key (map fst blocks) /\ nth_error key i = Some s.
  Proof.
    intros blocks i s. unfold used_in. rewrite existsb_exists. split.
    - intros [[k b] [Hin H]]. simpl in H. destruct (nth_error k i) as [s'|] eqn:E; [|discriminate].
      apply eqb_eq in H. subst s'. exists k. split; auto. change k with (fst (k, b)). now apply in_map.
    - intros [key [Hin E]]. apply in_map_iff in Hin as [[k b] [<- Hin]]. exists (k, b). split; auto.
      simpl in *. rewrite E. apply eqb_refl.
  Qed.

  Lemma prune_length : forall (blocks : list (list S * list R)) es i, length (prune_from blocks i es) = length es.
  Proof. induction es; simpl; auto. Qed.
  Lemma prune_nth : forall (blocks : list (list S * list R)) es i j e,
    nth_error es j = Some e ->
    nth_error (prune_from blocks i es) j =
      Some (mkEdge (earrow e) (filter (fun sd => used_in blocks (i + j) (fst sd)) (emap e))).
  Proof.
    induction es as [|e0 es IH]; intros i [|j] e E; simpl in *; try discriminate.
    - injection E as <-. now rewrite Nat.add_0_r.
    - rewrite (IH (Datatypes.S i) j e E). now replace (Datatypes.S i + j) with (i + Datatypes.S j) by lia.
  Qed.
  Lemma prune_sorted : forall (blocks : list (list S * list R)) es i, sorted_maps (maps_of es) ->
    sorted_maps (maps_of (prune_from blocks i es)).
  Proof.
    induction es as [|e es IH]; intros i H; simpl; [constructor|].
    inversion H; subst. constructor; [now apply msorted_filter|]. apply IH. auto.
  Qed.
  Lemma prune_choice : forall (blocks : list (list S * list R)) es i key n,
    choice (maps_of (prune_from blocks i es)) key n <->
    choice (maps_of es) key n /\ forall j s, nth_error key j = Some s -> used_in blocks (i + j) s = true.
  Proof.
    induction es as [|e es IH]; intros i key n; simpl; split.
    - intro C. split; auto. inversion C; subst. intros [|j] s E; discriminate.
    - tauto.
    - intro C. inversion C as [|? ? s d key' n' Hin C']; subst. apply filter_In in Hin as [Hin Hu].
      apply IH in C' as [C' Hu']. split; [now constructor|].
      intros [|j] s0 E; simpl in E.
      + injection E as <-. now rewrite Nat.add_0_r.
      + replace (i + Datatypes.S j) with (Datatypes.S i + j) by lia. auto.
    - intros [C Hu]. inversion C as [|? ? s d key' n' Hin C']; subst. constructor.
      + apply filter_In. split; auto. simpl. specialize (Hu 0 s eq_refl). now rewrite Nat.add_0_r in Hu.
      + apply IH. split; auto. intros j s0 E. replace (Datatypes.S i + j) with (i + Datatypes.S j) by lia. auto.
  Qed.

  Definition junk_blocks (junk : R) (bl : list (list S * nat)) : list (list S * list R) :=
    map (fun ks => (fst ks, repeat junk (snd ks))) bl.
  Lemma shape_junk : forall junk bl, shape (junk_blocks junk bl) = bl.
  Proof.
    intros. unfold shape, junk_blocks. rewrite map_map. simpl.
    rewrite <- (map_id bl) at 2. apply map_ext. intros [k n]. simpl. now rewrite repeat_length.
  Qed.
  Lemma junk_keys : forall junk bl, map fst (junk_blocks junk bl) = map fst bl.
  Proof. intros. unfold junk_blocks. now rewrite map_map. Qed.

  Lemma block_list_prune : forall es (blocks : list (list S * list R)),
    sorted_maps (maps_of es) -> map fst blocks = map fst (block_list (maps_of es)) ->
    block_list (maps_of (prune_from blocks 0 es)) = block_list (maps_of es).
  Proof.
    intros es blocks Hs Hk. apply msorted_In_ext with (OK := Ord_list S).
    - apply OrdLaws_list. typeclasses eauto.
    - apply block_list_sorted. now apply prune_sorted.
    - now apply block_list_sorted.
    - intros k n. rewrite !in_block_list, prune_choice. split.
      + tauto.
      + intros [C Z]. repeat split; auto. intros j s E. apply used_in_true. exists k. split; auto.
        rewrite Hk. assert (HI : In (k, n) (block_list (maps_of es))) by (apply in_block_list; auto).
        now apply (in_map fst) in HI.
  Qed.

  Lemma maps_of_possible_reverse : forall es : list (edge S), maps_of (map possible_reverse es) = maps_of es.
  Proof.
    intros. unfold maps_of. rewrite map_map. apply map_ext. intro e. unfold possible_reverse.
    now destruct (existsb _ _).
  Qed.

  Lemma make_core_eq : forall junk es auto_reverse, sorted_maps (maps_of es) ->
    let es' := if is_fermi && auto_reverse then map possible_reverse es else es in
    let blocks := junk_blocks junk (block_list (maps_of es)) in
    make_core junk es auto_reverse = Ok (mkCore (prune_from blocks 0 es') blocks).
  Proof.
    intros junk es ar Hs es' blocks. unfold make_core. fold es'. cbv zeta.
    assert (Em : map emap es' = maps_of es).
    { unfold es'. destruct (_ && _); auto. apply maps_of_possible_reverse. }
    rewrite Em, initialize_block_symmetries_eq. simpl.
    assert (Eb : of_list (map (fun ks => (fst ks, repeat junk (snd ks))) (block_list (maps_of es))) = blocks).
    { apply of_list_id. unfold msorted, blocks. rewrite junk_keys. exact (block_list_sorted _ Hs). }
    rewrite Eb. reflexivity.
  Qed.

  Lemma make_core_wf : forall junk es auto_reverse, sorted_maps (maps_of es) ->
    exists c, make_core junk es auto_reverse = Ok c /\ wf_core c.
  Proof.
    intros junk es ar Hs. eexists. split; [apply make_core_eq; auto|].
    set (es' := if is_fermi && ar then map possible_reverse es else es).
    set (blocks := junk_blocks junk (block_list (maps_of es))).
    assert (Em : maps_of es' = maps_of es).
    { unfold es'. destruct (_ && _); auto. apply maps_of_possible_reverse. }
    assert (Hk : map fst blocks = map fst (block_list (maps_of es'))).
    { unfold blocks. now rewrite junk_keys, Em. }
    constructor; simpl.
    - apply prune_sorted. now rewrite Em.
    - rewrite block_list_prune by (auto; now rewrite Em). rewrite Em. apply shape_junk.
    - intros i e s E Hin.
      assert (exists e0, nth_error es' i = Some e0) as [e0 E0].
      { destruct (nth_error es' i) eqn:X; eauto. apply nth_error_None in X.
        assert (i < length (prune_from blocks 0 es')) by (apply nth_error_Some; congruence).
        rewrite prune_length in H. lia. }
      rewrite (prune_nth _ _ _ _ _ E0) in E. injection E as <-. simpl in Hin.
      apply in_map_iff in Hin as [[s' d] [<- Hin]]. apply filter_In in Hin as [_ Hu].
      now apply used_in_true in Hu.
  Qed.

  (** ** blocks of a well-formed core *)
  Lemma wf_blocks_sorted : forall c, wf_core c -> msorted (c_blocks c).
  Proof.
    intros c W. unfold msorted. rewrite <- shape_keys, (wf_shape c W). now apply block_list_sorted, wf_maps.
  Qed.
  Lemma wf_block_find : forall c key ds, wf_core c ->
    dims_of (maps_of (c_edges c)) key = Some ds -> ssum key = szero ->
    exists b, mfind key (c_blocks c) = Some b /\ length b = prod ds.
  Proof.
    intros c key ds W E Z.
    assert (HI : In (key, prod ds) (block_list (maps_of (c_edges c)))).
    { apply in_block_list. split; auto. apply dims_of_choice; [now apply wf_maps|eauto]. }
    rewrite <- (wf_shape c W) in HI. apply in_map_iff in HI as [[k b] [E2 HI]]. injection E2 as -> E2.
    exists b. split; [|auto]. apply In_mfind; auto. now apply wf_blocks_sorted.
  Qed.
  Lemma wf_find_block : forall c key b, wf_core c -> mfind key (c_blocks c) = Some b ->
    ssum key = szero /\ exists ds, dims_of (maps_of (c_edges c)) key = Some ds /\ length b = prod ds.
  Proof.
    intros c key b W E. apply mfind_In in E.
    assert (HI : In (key, length b) (shape (c_blocks c))).
    { apply in_map_iff. exists (key, b). auto. }
    rewrite (wf_shape c W) in HI. apply in_block_list in HI as [C Z].
    apply dims_of_choice in C; [|now apply wf_maps]. split; auto.
  Qed.
End CoreFacts.
