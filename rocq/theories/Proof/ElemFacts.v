(** Element addresses. *)
From Coq Require Import String List Bool Arith Lia Sorted.
From Verif Require Import Base.Outcome Base.SMap Model.Symmetry Model.Edge Model.Core
  Spec.Blocks Proof.SymmetryFacts Proof.LoopFacts Proof.CoreFacts.
Import ListNotations.

(** ** row-major offsets *)
Lemma row_major_acc : forall ds is acc, length ds = length is ->
  fold_left (fun acc di => acc * fst di + snd di) (combine ds is) acc = acc * prod ds + row_major ds is.
Proof.
  unfold row_major, prod. induction ds as [|d ds IH]; intros [|i is] acc H; simpl in *; try discriminate.
  - lia.
  - rewrite (IH is (acc * d + i)), (IH is i) by lia. lia.
Qed.
Lemma row_major_cons : forall d ds i is, length ds = length is ->
  row_major (d :: ds) (i :: is) = i * prod ds + row_major ds is.
Proof. intros. unfold row_major at 1. simpl. now rewrite row_major_acc. Qed.
Lemma row_major_nil : row_major [] [] = 0.
Proof. reflexivity. Qed.
Lemma row_major_app : forall ds1 is1 ds2 is2, length ds1 = length is1 -> length ds2 = length is2 ->
  row_major (ds1 ++ ds2) (is1 ++ is2) = row_major ds1 is1 * prod ds2 + row_major ds2 is2.
Proof.
  induction ds1 as [|d ds1 IH]; intros [|i is1] ds2 is2 H1 H2; simpl in *; try discriminate.
  - reflexivity.
  - rewrite !row_major_cons by (rewrite ?app_length; lia). rewrite IH by lia. rewrite prod_app. lia.
Qed.
Lemma Forall2_len : forall A B (P : A -> B -> Prop) l1 l2, Forall2 P l1 l2 -> length l1 = length l2.
Proof. induction 1; simpl; congruence. Qed.
Lemma row_major_lt : forall ds is, Forall2 lt is ds -> row_major ds is < prod ds.
Proof.
  intros ds is H. induction H as [|i d is ds Hlt H IH]; [cbn; lia|].
  rewrite row_major_cons by (symmetry; eapply Forall2_len; eauto).
  change (prod (d :: ds)) with (d * prod ds). nia.
Qed.
Lemma row_major_inj : forall ds is1 is2, Forall2 lt is1 ds -> Forall2 lt is2 ds ->
  row_major ds is1 = row_major ds is2 -> is1 = is2.
Proof.
  induction ds as [|d ds IH]; intros is1 is2 H1 H2 E; inversion H1; inversion H2; subst; [reflexivity|].
  rewrite !row_major_cons in E by (symmetry; eapply Forall2_len; eauto).
  pose proof (row_major_lt _ _ H5). pose proof (row_major_lt _ _ H10).
  assert (x = x0) by nia. subst. f_equal. apply IH; auto. lia.
Qed.
Lemma row_major_surj : forall ds n, n < prod ds -> exists is, Forall2 lt is ds /\ row_major ds is = n.
Proof.
  induction ds as [|d ds IH]; intros n H.
  - exists []. split; [constructor|]. cbn in H. cbn. lia.
  - change (prod (d :: ds)) with (d * prod ds) in H.
    assert (Hp : prod ds <> 0) by (intro E; rewrite E in H; lia).
    destruct (IH (n mod prod ds)) as [is [Hi E]]; [now apply Nat.mod_upper_bound|].
    exists (n / prod ds :: is). split.
    + constructor; auto. apply Nat.div_lt_upper_bound; lia.
    + rewrite row_major_cons by (symmetry; eapply Forall2_len; eauto). rewrite E.
      pose proof (Nat.div_mod n (prod ds) Hp). lia.
Qed.

(** ** update *)
Section Update.
  Context {R : Type}.
  Lemma update_some : forall (l : list R) i v, i < length l -> exists l', update l i v = Some l'.
  Proof.
    induction l as [|a l IH]; intros i v H; simpl in H; [lia|]. destruct i; simpl; eauto.
    destruct (IH i v) as [l' ->]; [lia|]. eauto.
  Qed.
  Lemma update_length : forall (l : list R) i v l', update l i v = Some l' -> length l' = length l.
  Proof.
    induction l as [|a l IH]; intros [|i] v l' E; simpl in E; try discriminate.
    - injection E as <-. reflexivity.
    - destruct (update l i v) eqn:E2; [|discriminate]. injection E as <-. simpl. f_equal. eauto.
  Qed.
  Lemma update_lt : forall (l : list R) i v l', update l i v = Some l' -> i < length l.
  Proof.
    induction l as [|a l IH]; intros [|i] v l' E; simpl in E; try discriminate; simpl; [lia|].
    destruct (update l i v) eqn:E2; [|discriminate]. apply IH in E2. lia.
  Qed.
  Lemma update_same : forall (l : list R) i v l', update l i v = Some l' -> nth_error l' i = Some v.
  Proof.
    induction l as [|a l IH]; intros [|i] v l' E; simpl in E; try discriminate.
    - injection E as <-. reflexivity.
    - destruct (update l i v) eqn:E2; [|discriminate]. injection E as <-. simpl. eauto.
  Qed.
  Lemma update_other : forall (l : list R) i v l' j, update l i v = Some l' -> j <> i -> nth_error l' j = nth_error l j.
  Proof.
    induction l as [|a l IH]; intros [|i] v l' j E Hn; simpl in E; try discriminate.
    - injection E as <-. destruct j; [congruence|reflexivity].
    - destruct (update l i v) eqn:E2; [|discriminate]. injection E as <-. destruct j; simpl; auto. eauto.
  Qed.
End Update.

Section Elem.
  Context {S R : Type} {SS : Sym S} {SL : SymLaws S} {RR : Scalar R}.
  Notation entry := (S * nat)%type.

  (** pos gives to the i-th name the i-th coordinate of pt *)
  Definition assigns (pos : position) (names : list name) (pt : list entry) : Prop :=
    map (fun n => mfind n pos) names = map Some pt.

  Lemma assigns_combine : forall names (pt : list entry), NoDup names -> length names = length pt ->
    assigns (combine names pt) names pt.
  Proof.
    unfold assigns. induction names as [|n names IH]; intros [|x pt] Hn Hl; simpl in *; try discriminate; auto.
    inversion Hn; subst. unfold eqb at 1. simpl. rewrite Nat.compare_refl.
    f_equal. rewrite <- IH by (auto; lia). apply map_ext_in. intros a Ha.
    unfold eqb. simpl. destruct (Nat.compare a n) eqn:E; auto.
    apply Nat.compare_eq_iff in E. subst. contradiction.
  Qed.

  (** coordinates in range of a well-formed core, with total charge zero *)
  Definition valid_pt (c : core S R) (pt : list entry) : Prop :=
    in_range (maps_of (c_edges c)) pt /\ ssum (map fst pt) = szero.

  (** the stored element at coordinates in edge order *)
  Definition elem (c : core S R) (pt : list entry) : option R :=
    match dims_of (maps_of (c_edges c)) (map fst pt), mfind (map fst pt) (c_blocks c) with
    | Some ds, Some b => nth_error b (row_major ds (map snd pt))
    | _, _ => None
    end.

  Lemma nosym_keys_eq : is_nosym = true -> forall k1 k2 : list S, length k1 = length k2 -> k1 = k2.
  Proof.
    intros N. induction k1 as [|a k1 IH]; intros [|b k2] H; simpl in H; try discriminate; auto.
    f_equal; [|apply IH; lia]. rewrite (nosym_unit N a). symmetry. apply (nosym_unit N b).
  Qed.
  Lemma nosym_map_one : is_nosym = true -> forall (m : list entry) s d, msorted m -> In (s, d) m -> m = [(s, d)].
  Proof.
    intros N m s d Hs Hin. destruct m as [|[s0 d0] m]; [destruct Hin|].
    apply msorted_cons_inv in Hs as [_ Hlt].
    destruct m as [|[s1 d1] m].
    - destruct Hin as [Hin|[]]. now rewrite Hin.
    - exfalso. specialize (Hlt s1 (or_introl eq_refl)).
      rewrite (nosym_unit N s0), (nosym_unit N s1) in Hlt. now apply lt_irrefl in Hlt.
  Qed.
  Lemma nosym_blocks_one : is_nosym = true -> forall (c : core S R) key b, wf_core c -> mfind key (c_blocks c) = Some b ->
    c_blocks c = [(key, b)].
  Proof.
    intros N c key b W E. pose proof (wf_blocks_sorted c W) as Hs.
    assert (HL : forall k, In k (map fst (c_blocks c)) -> length k = length (c_edges c)).
    { intros k Hk. apply mfind_Some_In in Hk as [b' Hb]. apply wf_find_block in Hb as [_ [ds [Hd _]]]; auto.
      apply dims_of_length in Hd as [_ Hd]. rewrite Hd. unfold maps_of. apply map_length. }
    apply mfind_In in E. destruct (c_blocks c) as [|[k0 b0] bl]; [destruct E|].
    apply msorted_cons_inv in Hs as [_ Hlt]. destruct bl as [|[k1 b1] bl].
    - destruct E as [E|[]]. now rewrite E.
    - exfalso. specialize (Hlt k1 (or_introl eq_refl)).
      rewrite (nosym_keys_eq N k0 k1) in Hlt.
      + now apply lt_irrefl in Hlt.
      + rewrite (HL k0), (HL k1); simpl; auto.
  Qed.

  Lemma get_block_and_offset_ok : forall (pos : position) es names pt ds,
    sorted_maps (maps_of es) -> assigns pos names pt -> in_range (maps_of es) pt ->
    dims_of (maps_of es) (map fst pt) = Some ds ->
    mapM (fun ne =>
            match mfind (fst ne) pos with
            | None => tat_error "Name not found in position map when finding block and offset"%string
            | Some (s, i) =>
                bind (if is_nosym
                      then get_or_ub (option_map snd (hd_error (emap (snd ne))))
                      else at_or_throw (mfind s (emap (snd ne)))) (fun d => Ok (s, i, d))
            end) (combine names es) = Ok (combine pt ds).
  Proof.
    induction es as [|e es IH]; intros names pt ds Hs Ha Hr Hd.
    - inversion Hr; subst. destruct names; [|discriminate]. reflexivity.
    - inversion Hr as [|? ? s i d pt' Hin Hlt Hr']; subst.
      destruct names as [|n names]; [discriminate|]. unfold assigns in Ha. simpl in Ha.
      injection Ha as Hn Ha. inversion Hs as [|? ? Hm Hms]; subst.
      simpl in Hd. pose proof (In_mfind _ _ _ Hm Hin) as Hf. rewrite Hf in Hd.
      destruct (dims_of (maps_of es) (map fst pt')) as [ds'|] eqn:Ed; [|discriminate]. injection Hd as <-.
      simpl. rewrite Hn.
      assert (E : (if is_nosym then get_or_ub (option_map snd (hd_error (emap e))) else at_or_throw (mfind s (emap e))) = Ok d).
      { destruct is_nosym eqn:N.
        - rewrite (nosym_map_one N _ _ _ Hm Hin). reflexivity.
        - rewrite Hf. reflexivity. }
      rewrite E. simpl. rewrite (IH names pt' ds' Hms Ha Hr' Ed). reflexivity.
  Qed.

  Lemma combine_map_fst : forall A B (l1 : list A) (l2 : list B), length l1 = length l2 -> map fst (combine l1 l2) = l1.
  Proof. induction l1; intros [|b l2] H; simpl in *; try discriminate; auto. f_equal. auto. Qed.
  Lemma combine_map_snd : forall A B (l1 : list A) (l2 : list B), length l1 = length l2 -> map snd (combine l1 l2) = l2.
  Proof. induction l1; intros [|b l2] H; simpl in *; try discriminate; auto. f_equal. auto. Qed.

  Lemma address_ok : forall (t : tensor S R) pos pt, wf_tensor t -> assigns pos (t_names t) pt ->
    in_range (maps_of (t_edges t)) pt ->
    exists ds, dims_of (maps_of (t_edges t)) (map fst pt) = Some ds /\ Forall2 lt (map snd pt) ds /\
      get_block_and_offset pos (t_names t) (t_core t) = Ok (map fst pt, row_major ds (map snd pt)).
  Proof.
    intros t pos pt W Ha Hr. pose proof (wf_maps _ (wf_tcore t W)) as Hs.
    pose proof Hr as Hr'. apply in_range_dims in Hr' as [ds [Hd Hlt]]; [|exact Hs].
    exists ds. repeat split; auto. unfold get_block_and_offset.
    rewrite (get_block_and_offset_ok pos (c_edges (t_core t)) (t_names t) pt ds) by auto.
    simpl. assert (HL : length pt = length ds).
    { apply Forall2_len in Hlt. now rewrite map_length in Hlt. }
    rewrite <- (map_map fst fst), <- (map_map fst snd).
    now rewrite combine_map_fst, combine_map_snd.
  Qed.

  Lemma find_block_ok : forall (c : core S R) key b, wf_core c -> mfind key (c_blocks c) = Some b ->
    find_block c key = Ok b.
  Proof.
    intros c key b W E. unfold find_block. destruct is_nosym eqn:N.
    - rewrite (nosym_blocks_one N c key b W E). reflexivity.
    - rewrite E. reflexivity.
  Qed.

  Lemma valid_elem : forall (c : core S R) pt, wf_core c -> valid_pt c pt -> exists ds b v,
    dims_of (maps_of (c_edges c)) (map fst pt) = Some ds /\ Forall2 lt (map snd pt) ds /\
    mfind (map fst pt) (c_blocks c) = Some b /\ length b = prod ds /\
    nth_error b (row_major ds (map snd pt)) = Some v /\ elem c pt = Some v.
  Proof.
    intros c pt W [Hr Hz]. apply in_range_dims in Hr as [ds [Hd Hlt]]; [|now apply wf_maps].
    destruct (wf_block_find c _ ds W Hd Hz) as [b [Hb HL]].
    destruct (nth_error b (row_major ds (map snd pt))) as [v|] eqn:E.
    - exists ds, b, v. repeat split; auto. unfold elem. now rewrite Hd, Hb, E.
    - exfalso. apply nth_error_None in E. rewrite HL in E. pose proof (row_major_lt _ _ Hlt). lia.
  Qed.

  Lemma const_at_elem : forall (t : tensor S R) pos pt, wf_tensor t -> assigns pos (t_names t) pt ->
    valid_pt (t_core t) pt -> exists v, elem (t_core t) pt = Some v /\ const_at t pos = Ok v.
  Proof.
    intros t pos pt W Ha Hv. destruct (address_ok t pos pt W Ha (proj1 Hv)) as [ds [Hd [Hlt Hg]]].
    destruct (valid_elem _ _ (wf_tcore t W) Hv) as [ds' [b [v [Hd' [_ [Hb [HL [Hn He]]]]]]]].
    unfold t_edges in Hd. rewrite Hd in Hd'. injection Hd' as <-. exists v. split; auto.
    unfold const_at. rewrite Hg. simpl. rewrite (find_block_ok _ _ _ (wf_tcore t W) Hb). simpl.
    now rewrite Hn.
  Qed.

  (** in-range coordinates whose charges do not add up to zero have no element: reading throws *)
  Lemma const_at_forbidden : forall (t : tensor S R) pos pt, wf_tensor t -> assigns pos (t_names t) pt ->
    in_range (maps_of (t_edges t)) pt -> ssum (map fst pt) <> szero -> const_at t pos = Throw OutOfRange.
  Proof.
    intros t pos pt W Ha Hr Hz. destruct (address_ok t pos pt W Ha Hr) as [ds [Hd [Hlt Hg]]].
    unfold const_at. rewrite Hg. simpl. unfold find_block.
    destruct is_nosym eqn:N.
    - exfalso. apply Hz. apply (nosym_unit N).
    - destruct (mfind (map fst pt) (c_blocks (t_core t))) eqn:E; [|reflexivity].
      apply wf_find_block in E; [|apply (wf_tcore t W)]. tauto.
  Qed.

  (** every cell is the address of a coordinate *)
  Lemma cell_coordinate : forall (c : core S R) key b off, wf_core c -> In (key, b) (c_blocks c) -> off < length b ->
    exists pt ds, valid_pt c pt /\ map fst pt = key /\ dims_of (maps_of (c_edges c)) key = Some ds /\
                  row_major ds (map snd pt) = off.
  Proof.
    intros c key b off W Hin Hoff. apply In_mfind in Hin; [|now apply wf_blocks_sorted].
    apply wf_find_block in Hin as [Hz [ds [Hd HL]]]; auto. rewrite HL in Hoff.
    destruct (row_major_surj ds off Hoff) as [is [Hlt E]].
    apply dims_of_length in Hd as Hl. destruct Hl as [Hl1 Hl2].
    assert (HLk : length key = length is) by (apply Forall2_len in Hlt; lia).
    exists (combine key is), ds. unfold valid_pt.
    rewrite combine_map_fst, combine_map_snd by auto. repeat split; auto.
    apply in_range_dims; [now apply wf_maps|]. rewrite combine_map_fst, combine_map_snd by auto. eauto.
  Qed.

  Lemma pt_ext : forall p1 p2 : list entry, map fst p1 = map fst p2 -> map snd p1 = map snd p2 -> p1 = p2.
  Proof.
    induction p1 as [|[a b] p1 IH]; intros [|[c d] p2] H1 H2; simpl in *; try discriminate; auto.
    injection H1 as -> H1. injection H2 as -> H2. f_equal. auto.
  Qed.

  (** ** writing *)
  Definition with_blocks (t : tensor S R) (bl : list (list S * list R)) : tensor S R :=
    mkTensor (t_names t) (mkCore (t_edges t) bl).

  Lemma mset_shape : forall (bl : list (list S * list R)) key b b', mfind key bl = Some b -> length b' = length b ->
    msorted bl -> shape (mset key b' bl) = shape bl.
  Proof.
    intros bl key b b' E HL Hs.
    induction bl as [|[k0 b0] bl IH]; [discriminate|].
    cbn [mfind] in E. cbn [mset]. unfold eqb in E. destruct (cmp key k0) eqn:C; cbn [shape map fst snd].
    - apply cmp_eq_iff in C. subst. injection E as ->. now rewrite HL.
    - exfalso. apply msorted_cons_inv in Hs as [_ Hlt]. apply mfind_In_key in E. apply Hlt in E.
      apply (lt_irrefl key). eapply cmp_trans; eauto.
    - f_equal. apply IH; auto. now apply msorted_cons_inv in Hs.
  Qed.

  Lemma shape_wf : forall (c c' : core S R), wf_core c -> c_edges c' = c_edges c ->
    shape (c_blocks c') = shape (c_blocks c) -> wf_core c'.
  Proof.
    intros c c' W He Hs. assert (Hk : map fst (c_blocks c') = map fst (c_blocks c)).
    { rewrite <- !shape_keys. now rewrite Hs. }
    constructor.
    - rewrite He. apply (wf_maps c W).
    - rewrite He, Hs. apply (wf_shape c W).
    - rewrite He, Hk. apply (wf_pruned c W).
  Qed.

  Lemma set_at_ok : forall (t : tensor S R) pos pt v, wf_tensor t -> assigns pos (t_names t) pt ->
    valid_pt (t_core t) pt ->
    exists t', set_at t pos v = Ok t' /\ wf_tensor t' /\ t_names t' = t_names t /\ t_edges t' = t_edges t /\
      elem (t_core t') pt = Some v /\
      forall pt', valid_pt (t_core t) pt' -> pt' <> pt -> elem (t_core t') pt' = elem (t_core t) pt'.
  Proof.
    intros t pos pt v W Ha Hv. pose proof (wf_tcore t W) as Wc.
    destruct (address_ok t pos pt W Ha (proj1 Hv)) as [ds [Hd [Hlt Hg]]].
    destruct (valid_elem _ _ Wc Hv) as [ds' [b [v0 [Hd' [_ [Hb [HL [Hn He]]]]]]]].
    unfold t_edges in Hd. rewrite Hd in Hd'. injection Hd' as <-.
    destruct (update_some b (row_major ds (map snd pt)) v) as [b' Hu].
    { apply nth_error_Some. congruence. }
    set (t' := with_blocks t (mset (map fst pt) b' (t_blocks t))).
    assert (E : set_at t pos v = Ok t').
    { unfold set_at. rewrite Hg. simpl. rewrite (find_block_ok _ _ _ Wc Hb). simpl. rewrite Hu. simpl.
      destruct is_nosym eqn:N; [|reflexivity].
      unfold t', with_blocks, t_blocks. rewrite (nosym_blocks_one N _ _ _ Wc Hb). reflexivity. }
    assert (Hsh : shape (mset (map fst pt) b' (t_blocks t)) = shape (t_blocks t)).
    { eapply mset_shape; [exact Hb|now apply update_length in Hu|now apply wf_blocks_sorted]. }
    exists t'. split; [exact E|]. split; [|split; [reflexivity|split; [reflexivity|]]].
    - constructor; simpl.
      + apply (shape_wf (t_core t)); simpl; auto.
      + apply (wf_nodup t W).
      + apply (wf_rank t W).
    - split.
      + unfold elem, t'. simpl. unfold t_edges. rewrite Hd, mfind_mset_same.
        now apply update_same in Hu.
      + intros pt' Hv' Hne. unfold elem, t'. simpl. unfold t_edges, t_blocks.
        destruct (valid_elem _ _ Wc Hv') as [ds2 [b2 [v2 [Hd2 [Hlt2 [Hb2 [HL2 [Hn2 He2]]]]]]]].
        rewrite Hd2. destruct (ord_dec (map fst pt') (map fst pt)) as [Ek|Nk].
        * rewrite Ek, mfind_mset_same. rewrite Ek in Hb2, Hd2. rewrite Hb2.
          rewrite Hb2 in Hb. injection Hb as ->. rewrite Hd2 in Hd. injection Hd as ->.
          apply (update_other _ _ _ _ _ Hu). intro Er. apply Hne. apply pt_ext; auto.
          eapply row_major_inj; eauto.
        * rewrite mfind_mset_other by auto. reflexivity.
  Qed.
End Elem.
