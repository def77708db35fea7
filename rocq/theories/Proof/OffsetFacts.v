(** The offset tables built by merge and split, and bijectivity of the merged coordinate. *)
From Coq Require Import List Bool Arith Lia Sorted.
From Verif Require Import Base.Outcome Base.SMap Model.Symmetry Model.Edge Model.Core Model.Transpose Model.EdgeOperator
  Spec.Blocks Spec.Fuse Proof.SymmetryFacts Proof.LoopFacts Proof.CoreFacts Proof.ElemFacts.
Import ListNotations.

Section Offsets.
  Context {S : Type} {SS : Sym S} {SL : SymLaws S}.
  Notation entry := (S * nat)%type.

  Lemma ssum_acc : forall (l : list S) a, fold_left sadd l a = sadd a (ssum l).
  Proof.
    unfold ssum. induction l as [|x l IH]; intro a; simpl.
    - rewrite sadd_comm, sadd_0_l. reflexivity.
    - rewrite IH, (IH (sadd szero x)), sadd_0_l. now rewrite sadd_assoc.
  Qed.
  Lemma last_accumulate_add : forall (l : list S) u, last (accumulate sadd u l) u = sadd u (ssum l).
  Proof.
    induction l as [|x l IH]; intro u.
    - simpl. unfold ssum. simpl. rewrite sadd_comm, sadd_0_l. reflexivity.
    - simpl accumulate. rewrite last_cons, IH. unfold ssum at 2. simpl. rewrite ssum_acc, sadd_0_l.
      rewrite sadd_assoc. f_equal. apply sadd_comm.
  Qed.

  (** ** the loops as folds over the tuples *)
  Definition tb : Type := (list (list S * (S * nat)) * list (S * nat))%type.
  Definition split_step (x : tb) (t : list entry) : tb :=
    match mfind (total t) (snd x) with
    | Some off => (mset (map fst t) (total t, off) (fst x), mset (total t) (off + volume t) (snd x))
    | None => x
    end.
  Definition merge_step (x : tb) (t : list entry) : tb :=
    let off := match mfind (total t) (snd x) with Some o => o | None => 0 end in
    (mset (map fst t) (total t, off) (fst x), mset (total t) (off + volume t) (snd x)).

  Definition off_inv (x : tb) (st : @off_state S) (cur : list entry) (mc : nat) : Prop :=
    let '(o, b, accs, accd, curs) := st in
    (o, b) = x /\ firstn mc accs = firstn mc (accumulate sadd szero (map fst cur)) /\
    firstn mc accd = firstn mc (accumulate Nat.mul 1 (map snd cur)) /\
    firstn mc curs = firstn mc (map fst cur).

  Lemma off_accumulate_eq : forall x st cur mc, off_inv x st cur mc ->
    off_accumulate st cur mc = (accumulate sadd szero (map fst cur), accumulate Nat.mul 1 (map snd cur), map fst cur).
  Proof.
    intros x [[[[o b] accs] accd] curs] cur mc [_ [H1 [H2 H3]]]. unfold off_accumulate.
    rewrite !accumulate_from_eq by auto. now rewrite H3, firstn_skipn.
  Qed.
  Lemma last_total : forall cur : list entry, cur <> [] -> last (accumulate sadd szero (map fst cur)) szero = total cur.
  Proof. intros cur _. rewrite last_accumulate_add, sadd_0_l. reflexivity. Qed.
  Lemma last_volume : forall cur : list entry, cur <> [] -> last (accumulate Nat.mul 1 (map snd cur)) 0 = volume cur.
  Proof.
    intros cur H. rewrite (last_default _ _ 0 1), last_accumulate_mul; [unfold volume, prod; lia|].
    destruct cur; [congruence|discriminate].
  Qed.
  Lemma off_weaken : forall x st (cur cur' : list entry) mc k, off_inv x st cur mc -> firstn k cur = firstn k cur' ->
    off_inv x st cur' (Nat.min mc k).
  Proof.
    intros x [[[[o b] accs] accd] curs] cur cur' mc k [I1 [I2 [I3 I4]]] Hk. unfold off_inv.
    split; [exact I1|]. split; [|split].
    - eapply firstn_min_eq; [exact I2|]. rewrite !accumulate_firstn, !firstn_map. now rewrite Hk.
    - eapply firstn_min_eq; [exact I3|]. rewrite !accumulate_firstn, !firstn_map. now rewrite Hk.
    - eapply firstn_min_eq; [exact I4|]. rewrite !firstn_map. now rewrite Hk.
  Qed.
  Lemma tuple_nonempty : forall (maps : list (list entry)) t, maps <> [] -> In t (tuples maps) -> t <> [].
  Proof. intros maps t H Hin ->. apply tuples_length in Hin. destruct maps; [congruence|discriminate]. Qed.

  Lemma split_operate_inv : forall maps x st cur mc, maps <> [] -> In cur (tuples maps) -> off_inv x st cur mc ->
    off_inv (split_step x cur) (fst (split_operate (length maps) st cur mc)) cur (snd (split_operate (length maps) st cur mc)).
  Proof.
    intros maps x st cur mc Hm Hin HI. unfold split_operate. rewrite (off_accumulate_eq x) by auto.
    pose proof (tuple_nonempty _ _ Hm Hin) as Hc.
    destruct st as [[[[o b] accs] accd] curs]. destruct HI as [<- _].
    rewrite last_total, last_volume by auto. unfold split_step. simpl fst. simpl snd.
    destruct (mfind (total cur) b); simpl; auto.
  Qed.
  Lemma merge_operate_inv : forall maps x st cur mc, maps <> [] -> In cur (tuples maps) -> off_inv x st cur mc ->
    off_inv (merge_step x cur) (fst (merge_operate (length maps) st cur mc)) cur (snd (merge_operate (length maps) st cur mc)).
  Proof.
    intros maps x st cur mc Hm Hin HI. unfold merge_operate. rewrite (off_accumulate_eq x) by auto.
    pose proof (tuple_nonempty _ _ Hm Hin) as Hc.
    destruct st as [[[[o b] accs] accd] curs]. destruct HI as [<- _].
    rewrite last_total, last_volume by auto. unfold merge_step. simpl. auto.
  Qed.

  Lemma split_offsets_eq : forall before maps, maps <> [] ->
    split_offsets before maps = Ok (fst (fold_left split_step (tuples maps) ([], map (fun sd => (fst sd, 0)) before))).
  Proof.
    intros before maps Hm. unfold split_offsets. cbv zeta.
    destruct (maps_cases maps) as [->|[H|[H1 H2]]]; [congruence| |].
    - rewrite loop_edge_dims0 by auto. apply tuples_nil_iff in H. rewrite H. reflexivity.
    - destruct (loop_edge_spec maps (split_operate (length maps)) split_step off_inv)
        with (rank0 := fun st : @off_state S => let '(_, b, x, y, z) := st in ([([] : list S, (szero : S, 0))], b, x, y, z))
             (dims0 := fun st : @off_state S => st)
             (st := off_init (length maps) (map (fun sd : entry => (fst sd, 0)) before))
             (abs := ([] : list (list S * (S * nat)), map (fun sd : entry => (fst sd, 0)) before))
        as [st' [cur' [mc' [E [_ I]]]]]; auto.
      + intros abs st cur mc Hin HI. now apply split_operate_inv.
      + intros abs st cur cur' mc k _ _ HI Hk. eapply off_weaken; eauto.
      + intros cur _. simpl. auto.
      + match goal with |- bind ?X _ = _ => replace X with (Ok st') by (symmetry; exact E) end.
        simpl. destruct st' as [[[[o b] accs] accd] curs]. destruct I as [I _]. rewrite <- I. reflexivity.
  Qed.
  Lemma merge_offsets_eq : forall maps,
    merge_offsets maps = Ok (fold_left merge_step (tuples maps) ([], [])).
  Proof.
    intros maps. unfold merge_offsets. cbv zeta.
    destruct (maps_cases maps) as [->|[H|[H1 H2]]].
    - simpl. unfold merge_step. simpl. unfold total, ssum. simpl. unfold volume. simpl. reflexivity.
    - rewrite loop_edge_dims0 by auto. apply tuples_nil_iff in H. rewrite H. reflexivity.
    - destruct (loop_edge_spec maps (merge_operate (length maps)) merge_step off_inv)
        with (rank0 := fun st : @off_state S => let '(_, _, x, y, z) := st in ([([] : list S, (szero : S, 0))], [(szero : S, 1)], x, y, z))
             (dims0 := fun st : @off_state S => st)
             (st := @off_init S _ (length maps) ([] : list entry))
             (abs := ([] : list (list S * (S * nat)), [] : list entry))
        as [st' [cur' [mc' [E [_ I]]]]]; auto.
      + intros abs st cur mc Hin HI. now apply merge_operate_inv.
      + intros abs st cur cur' mc k _ _ HI Hk. eapply off_weaken; eauto.
      + intros cur _. simpl. auto.
      + match goal with |- bind ?X _ = _ => replace X with (Ok st') by (symmetry; exact E) end.
        simpl. destruct st' as [[[[o b] accs] accd] curs]. destruct I as [I _]. rewrite <- I. reflexivity.
  Qed.

  (** ** what the folds compute *)
  Definition off_in (ts : list (list entry)) (s : S) : nat :=
    list_sum (map volume (filter (fun t => eqb (total t) s) ts)).
  Lemma list_sum_app' : forall a b, list_sum (a ++ b) = list_sum a + list_sum b.
  Proof. induction a; simpl; intros; auto. rewrite IHa. lia. Qed.
  Lemma off_in_snoc : forall ts t s, off_in (ts ++ [t]) s = off_in ts s + (if eqb (total t) s then volume t else 0).
  Proof.
    intros. unfold off_in. rewrite filter_app, map_app, list_sum_app'. simpl. destruct (eqb (total t) s); simpl; lia.
  Qed.

  Section Fold.
    Variable init : list entry.
    Variable keep : S -> bool.      (* charges the table is built for *)
    Variable fstep : tb -> list entry -> tb.
    (** bank b after the tuples ts *)
    Variable bank_ok : list (list entry) -> list entry -> Prop.
    Hypothesis H_step : forall ts t o b, bank_ok ts b ->
      fst (fstep (o, b) t) = (if keep (total t) then mset (map fst t) (total t, off_in ts (total t)) o else o) /\
      bank_ok (ts ++ [t]) (snd (fstep (o, b) t)).
    Hypothesis H_init : bank_ok [] init.

    Lemma fold_steps : forall ts, NoDup (map (map fst) ts) ->
      let x := fold_left fstep ts ([], init) in
      bank_ok ts (snd x) /\ msorted (fst x) /\
      (forall key v, mfind key (fst x) = Some v -> exists t, In t ts /\ key = map fst t /\ keep (total t) = true) /\
      (forall pre t post, ts = pre ++ t :: post -> keep (total t) = true ->
         mfind (map fst t) (fst x) = Some (total t, off_in pre (total t))).
    Proof.
      intros ts. induction ts as [|t ts IH] using rev_ind; intros Hn x.
      - simpl in x. subst x. simpl. split; [exact H_init|]. split; [constructor|]. split; [discriminate|].
        intros [|? ?] ? ? E; discriminate.
      - rewrite map_app in Hn. simpl in Hn. apply NoDup_remove in Hn as Hn'. rewrite app_nil_r in Hn'.
        destruct Hn' as [Hn1 Hn2]. specialize (IH Hn1). cbv zeta in IH.
        subst x. rewrite fold_left_app. simpl. destruct (fold_left fstep ts ([], init)) as [o b].
        simpl in IH. destruct IH as [Hb [Hs [H1 H2]]]. destruct (H_step ts t o b Hb) as [E1 E2].
        destruct (fstep (o, b) t) as [o' b']. simpl in *. subst o'. split; [exact E2|]. split; [|split].
        + destruct (keep (total t)); auto. now apply mset_sorted.
        + intros key v Hf. destruct (keep (total t)) eqn:Ek.
          * destruct (ord_dec key (map fst t)) as [->|Hne].
            -- exists t. rewrite in_app_iff. simpl. auto.
            -- rewrite mfind_mset_other in Hf by auto. destruct (H1 _ _ Hf) as [t' [Ht' ?]]. exists t'. rewrite in_app_iff. auto.
          * destruct (H1 _ _ Hf) as [t' [Ht' ?]]. exists t'. rewrite in_app_iff. auto.
        + intros pre t' post E Ek.
          destruct post as [|p post] using rev_ind.
          * apply app_inj_tail in E as [-> ->]. rewrite Ek. apply mfind_mset_same.
          * clear IHpost. rewrite app_comm_cons, app_assoc in E. apply app_inj_tail in E as [-> ->].
            assert (Hne : map fst t' <> map fst p).
            { intro Eq. apply Hn2. rewrite <- Eq. rewrite map_app. apply in_or_app. right. now left. }
            destruct (keep (total p)); [rewrite mfind_mset_other by auto|]; eapply H2; eauto.
    Qed.
  End Fold.

  Lemma tuples_keys_nodup : forall maps : list (list entry), sorted_maps maps -> NoDup (map (map fst) (tuples maps)).
  Proof.
    intros maps H. pose proof (tuples_keys_sorted maps H) as HS. induction HS; constructor; auto.
    intro HI. rewrite Forall_forall in H0. apply H0 in HI. now apply lt_irrefl in HI.
  Qed.

  (** the tuples before t in the enumeration are the smaller keys *)
  Lemma off_in_offset : forall (maps : list (list entry)) pre t post, sorted_maps maps -> tuples maps = pre ++ t :: post ->
    off_in pre (total t) = merged_offset maps (map fst t).
  Proof.
    intros maps pre t post Hs E. unfold off_in, merged_offset. f_equal. f_equal.
    pose proof (tuples_keys_sorted maps Hs) as HS. rewrite E in *. rewrite map_app in HS. simpl in HS.
    rewrite filter_app. simpl.
    assert (H0 : ltb (map fst t) (map fst t) = false).
    { unfold ltb. now rewrite cmp_refl. }
    rewrite H0, andb_false_r.
    assert (Hpost : filter (fun t0 => eqb (total t0) (ssum (map fst t)) && ltb (map fst t0) (map fst t)) post = []).
    { assert (HF : Forall (fun k => cmp (map fst t) k = Lt) (map (map fst) post)).
      { clear - HS. induction (map (map fst) pre); simpl in HS; inversion HS; subst; auto. }
      clear - HF SL. induction post as [|p post IH]; simpl; auto. inversion HF; subst.
      unfold ltb at 1. rewrite (lt_gt _ _ H1), andb_false_r. auto. }
    rewrite Hpost, app_nil_r.
    assert (HF : forall p, In p pre -> cmp (map fst p) (map fst t) = Lt).
    { clear - HS. induction pre as [|q pre IH]; intros p Hp; [contradiction|]. simpl in HS. inversion HS as [|? ? HS' HF]; subst.
      destruct Hp as [<-|Hp]; [|auto]. rewrite Forall_forall in HF. apply HF. apply in_or_app. right. now left. }
    apply filter_ext_in. intros p Hp. unfold ltb. rewrite (HF p Hp), andb_true_r. reflexivity.
  Qed.

  Lemma off_in_total : forall (maps : list (list entry)) s, off_in (tuples maps) s = merged_dim maps s.
  Proof. reflexivity. Qed.

  (** table entries: present exactly for the tuples with a kept total charge *)
  Definition table_ok (maps : list (list entry)) (keep : S -> bool) (o : offset_map) : Prop :=
    msorted o /\
    forall key, mfind key o =
      if existsb (fun t => eqb (map fst t) key && keep (total t)) (tuples maps)
      then Some (ssum key, merged_offset maps key) else None.

  Lemma table_from_fold : forall maps keep (o : offset_map), sorted_maps maps -> msorted o ->
      (forall key v, mfind key o = Some v -> exists t, In t (tuples maps) /\ key = map fst t /\ keep (total t) = true) ->
      (forall pre t post, tuples maps = pre ++ t :: post -> keep (total t) = true ->
         mfind (map fst t) o = Some (total t, off_in pre (total t))) ->
      table_ok maps keep o.
  Proof.
    intros maps keep o Hs Ho H1 H2. split; auto. intro key.
    destruct (existsb _ (tuples maps)) eqn:E.
    - apply existsb_exists in E as [t [Ht Hk]]. apply andb_prop in Hk as [Hk Hp]. apply eqb_eq in Hk. subst key.
      apply in_split in Ht as [pre [post Et]]. rewrite (H2 _ _ _ Et Hp). f_equal. unfold total at 1. f_equal.
      eapply off_in_offset; eauto.
    - destruct (mfind key o) as [v|] eqn:Ef; auto. exfalso. destruct (H1 _ _ Ef) as [t [Ht [-> Hp]]].
      assert (HX : existsb (fun t0 => eqb (map fst t0) (map fst t) && keep (total t0)) (tuples maps) = true).
      { apply existsb_exists. exists t. split; auto. now rewrite eqb_refl, Hp. }
      congruence.
  Qed.

  Lemma split_offsets_ok : forall before maps, sorted_maps maps -> maps <> [] ->
    exists o, split_offsets before maps = Ok o /\ table_ok maps (fun s => mmem s before) o.
  Proof.
    intros before maps Hs Hm. rewrite (split_offsets_eq before maps Hm). eexists. split; [reflexivity|].
    pose proof (fold_steps (map (fun sd : entry => (fst sd, 0)) before) (fun s => mmem s before) split_step
      (fun ts b => forall s, mfind s b = if mmem s before then Some (off_in ts s) else None)) as F.
    destruct F with (ts := tuples maps) as [_ [F2 [F3 F4]]].
    - intros ts t o b Hb. unfold split_step. simpl. rewrite Hb.
      destruct (mmem (total t) before) eqn:Em; simpl; split; auto.
      + intro s. rewrite off_in_snoc. destruct (ord_dec s (total t)) as [->|Hne].
        * rewrite mfind_mset_same, Em, eqb_refl. reflexivity.
        * rewrite mfind_mset_other by auto. rewrite Hb. replace (eqb (total t) s) with false; [now rewrite Nat.add_0_r|].
          symmetry. apply eqb_false. congruence.
      + intro s. rewrite off_in_snoc, Hb. destruct (mmem s before) eqn:Es; auto.
        replace (eqb (total t) s) with false; [now rewrite Nat.add_0_r|]. symmetry. apply eqb_false. congruence.
    - intro s. clear. unfold mmem. induction before as [|[s0 d0] before IH]; simpl; auto. destruct (eqb s s0); [reflexivity|exact IH].
    - now apply tuples_keys_nodup.
    - now apply table_from_fold.
  Qed.

  Lemma merge_offsets_ok : forall maps, sorted_maps maps ->
    exists o m, merge_offsets maps = Ok (o, m) /\ table_ok maps (fun _ => true) o /\ msorted m /\
      forall s, mfind s m = if existsb (fun t => eqb (total t) s) (tuples maps) then Some (merged_dim maps s) else None.
  Proof.
    intros maps Hs. rewrite merge_offsets_eq.
    pose proof (fold_steps ([] : list entry) (fun _ => true) merge_step
      (fun ts b => msorted b /\ forall s, mfind s b = if existsb (fun t => eqb (total t) s) ts then Some (off_in ts s) else None)) as F.
    destruct F with (ts := tuples maps) as [[F1 F1'] [F2 [F3 F4]]].
    - intros ts t o b [Hb1 Hb]. unfold merge_step. simpl.
      assert (E0 : match mfind (total t) b with Some o => o | None => 0 end = off_in ts (total t)).
      { rewrite Hb. destruct (existsb _ ts) eqn:E; auto. unfold off_in.
        replace (filter (fun t0 => eqb (total t0) (total t)) ts) with (@nil (list entry)); auto.
        clear - E. induction ts as [|x ts IH]; simpl in *; auto. apply orb_false_elim in E as [-> E]. auto. }
      rewrite E0. split; auto. split; [now apply mset_sorted|]. intro s. rewrite off_in_snoc, existsb_app. simpl.
      rewrite orb_false_r. destruct (ord_dec s (total t)) as [->|Hne].
      + rewrite mfind_mset_same, eqb_refl, orb_true_r. reflexivity.
      + rewrite mfind_mset_other by auto. rewrite Hb.
        assert (Ef : eqb (total t) s = false) by (apply eqb_false; congruence).
        rewrite Ef, orb_false_r, Nat.add_0_r. reflexivity.
    - split; [constructor|]. reflexivity.
    - now apply tuples_keys_nodup.
    - destruct (fold_left merge_step (tuples maps) ([], [])) as [o m]. exists o, m. simpl in *.
      split; [reflexivity|]. split; [now apply table_from_fold|]. auto.
  Qed.

  (** ** fuse is a bijection onto the merged segments *)
  Lemma dims_in_dims_of : forall (maps : list (list entry)) key ds, dims_of maps key = Some ds -> dims_in maps key = ds.
  Proof.
    induction maps as [|m ms IH]; intros [|s key] ds E; simpl in E; try discriminate.
    - injection E as <-. reflexivity.
    - unfold dims_in in *. simpl. destruct (mfind s m) as [d|]; [|discriminate].
      destruct (dims_of ms key) as [ds'|] eqn:E2; [|discriminate]. injection E as <-. f_equal. now apply IH.
  Qed.
  Lemma tuple_dims : forall (maps : list (list entry)) t, sorted_maps maps -> In t (tuples maps) ->
    dims_of maps (map fst t) = Some (map snd t).
  Proof.
    induction maps as [|m ms IH]; intros t Hs Ht; apply in_tuples in Ht; inversion Ht as [|? [s d] ? t' Hx Ht']; subst; auto.
    inversion Hs; subst. simpl. rewrite (In_mfind _ _ _ H1 Hx). rewrite IH; auto. now apply in_tuples.
  Qed.
  Lemma dims_tuple : forall (maps : list (list entry)) key ds, dims_of maps key = Some ds ->
    In (combine key ds) (tuples maps).
  Proof.
    induction maps as [|m ms IH]; intros [|s key] ds E; simpl in E; try discriminate.
    - injection E as <-. now left.
    - destruct (mfind s m) as [d|] eqn:Em; [|discriminate].
      destruct (dims_of ms key) as [ds'|] eqn:E2; [|discriminate]. injection E as <-.
      simpl. apply in_flat_map. exists (s, d). split; [now apply mfind_In|]. apply in_map. auto.
  Qed.

  (** splitting the merged segment of s: the offsets of the keys with total s partition [0, merged_dim) *)
  Lemma off_in_app : forall a b s, off_in (a ++ b) s = off_in a s + off_in b s.
  Proof. intros. unfold off_in. now rewrite filter_app, map_app, list_sum_app'. Qed.
  Lemma off_in_cons : forall t b s, off_in (t :: b) s = (if eqb (total t) s then volume t else 0) + off_in b s.
  Proof. intros. unfold off_in. simpl. destruct (eqb (total t) s); reflexivity. Qed.

  Lemma locate : forall ts s n, n < off_in ts s ->
    exists pre t post i, ts = pre ++ t :: post /\ total t = s /\ i < volume t /\ n = off_in pre s + i.
  Proof.
    induction ts as [|t ts IH]; intros s n H; [cbn in H; lia|]. rewrite off_in_cons in H.
    destruct (eqb (total t) s) eqn:E.
    - apply eqb_eq in E. destruct (Nat.lt_ge_cases n (volume t)) as [Hlt|Hge].
      + exists [], t, ts, n. repeat split; auto.
      + destruct (IH s (n - volume t)) as [pre [t' [post [i [-> [E1 [E2 E3]]]]]]]; [lia|].
        exists (t :: pre), t', post, i. repeat split; auto. rewrite off_in_cons. rewrite <- E at 1. rewrite eqb_refl. lia.
    - destruct (IH s n) as [pre [t' [post [i [-> [E1 [E2 E3]]]]]]]; [lia|].
      exists (t :: pre), t', post, i. repeat split; auto. rewrite off_in_cons, E. lia.
  Qed.
  Lemma locate_unique : forall ts s pre1 t1 post1 i1 pre2 t2 post2 i2,
    ts = pre1 ++ t1 :: post1 -> ts = pre2 ++ t2 :: post2 -> total t1 = s -> total t2 = s ->
    i1 < volume t1 -> i2 < volume t2 -> off_in pre1 s + i1 = off_in pre2 s + i2 -> pre1 = pre2 /\ t1 = t2 /\ i1 = i2.
  Proof.
    induction ts as [|t ts IH]; intros s pre1 t1 post1 i1 pre2 t2 post2 i2 E1 E2 T1 T2 H1 H2 E.
    - destruct pre1; discriminate.
    - destruct pre1 as [|p1 pre1]; destruct pre2 as [|p2 pre2]; simpl in E1, E2; injection E1 as <- E1; injection E2 as <- E2.
      + repeat split. cbn in E. lia.
      + exfalso. rewrite off_in_cons in E. rewrite <- T1 in E at 2. rewrite eqb_refl in E. cbn in E. lia.
      + exfalso. rewrite off_in_cons in E. rewrite <- T2 in E at 1. rewrite eqb_refl in E. cbn in E. lia.
      + rewrite !off_in_cons in E. destruct (IH s pre1 t1 post1 i1 pre2 t2 post2 i2) as [-> [-> ->]]; auto. lia.
  Qed.

  Lemma in_range_tuple : forall (maps : list (list entry)) pt, sorted_maps maps -> in_range maps pt ->
    exists t, In t (tuples maps) /\ map fst t = map fst pt /\ dims_in maps (map fst pt) = map snd t /\
      dims_of maps (map fst pt) = Some (map snd t) /\ Forall2 lt (map snd pt) (map snd t).
  Proof.
    intros maps pt Hs Hr. apply in_range_dims in Hr as [ds [Hd Hlt]]; auto.
    pose proof (dims_tuple _ _ _ Hd) as Ht. exists (combine (map fst pt) ds). split; auto.
    apply dims_of_length in Hd as HL. destruct HL as [L1 L2].
    rewrite combine_map_fst by lia. rewrite combine_map_snd by lia. repeat split; auto. now apply dims_in_dims_of.
  Qed.

  Lemma total_fst : forall t1 t2 : list entry, map fst t1 = map fst t2 -> total t1 = total t2.
  Proof. intros t1 t2 H. unfold total. now rewrite H. Qed.
  Lemma volume_prod : forall t : list entry, volume t = prod (map snd t).
  Proof. reflexivity. Qed.
  Lemma flat_index_row_major : forall ds idx, flat_index ds idx = row_major ds idx.
  Proof. reflexivity. Qed.

  Lemma fuse_bound : forall (maps : list (list entry)) pt, sorted_maps maps -> in_range maps pt ->
    snd (fuse maps pt) < merged_dim maps (total pt).
  Proof.
    intros maps pt Hs Hr. destruct (in_range_tuple maps pt Hs Hr) as [t [Ht [E1 [E2 [_ E3]]]]].
    apply in_split in Ht as [pre [post Et]]. unfold fuse. simpl. rewrite E2, flat_index_row_major.
    rewrite <- E1. rewrite <- (off_in_offset maps pre t post Hs Et). rewrite <- off_in_total, Et, off_in_app, off_in_cons.
    rewrite (total_fst pt t) by auto. rewrite eqb_refl, volume_prod. pose proof (row_major_lt _ _ E3). lia.
  Qed.
  Lemma fuse_injective : forall (maps : list (list entry)) p1 p2, sorted_maps maps -> in_range maps p1 -> in_range maps p2 ->
    fuse maps p1 = fuse maps p2 -> p1 = p2.
  Proof.
    intros maps p1 p2 Hs H1 H2 E. unfold fuse in E. injection E as Es Ei.
    destruct (in_range_tuple maps p1 Hs H1) as [t1 [Ht1 [A1 [B1 [_ C1]]]]].
    destruct (in_range_tuple maps p2 Hs H2) as [t2 [Ht2 [A2 [B2 [_ C2]]]]].
    apply in_split in Ht1 as [pre1 [post1 E1]]. apply in_split in Ht2 as [pre2 [post2 E2]].
    rewrite B1, B2, !flat_index_row_major in Ei. rewrite <- A1, <- A2 in Ei.
    rewrite <- (off_in_offset maps pre1 t1 post1 Hs E1), <- (off_in_offset maps pre2 t2 post2 Hs E2) in Ei.
    rewrite (total_fst p1 t1), (total_fst p2 t2) in Es by auto. rewrite Es in Ei.
    destruct (locate_unique (tuples maps) (total t2) pre1 t1 post1 (row_major (map snd t1) (map snd p1)) pre2 t2 post2 (row_major (map snd t2) (map snd p2)))
      as [-> [-> E]]; auto.
    - rewrite volume_prod. now apply row_major_lt.
    - rewrite volume_prod. now apply row_major_lt.
    - apply pt_ext; [congruence|]. eapply row_major_inj; eauto.
  Qed.
  Lemma fuse_surjective : forall (maps : list (list entry)) s n, sorted_maps maps -> n < merged_dim maps s ->
    exists pt, in_range maps pt /\ fuse maps pt = (s, n).
  Proof.
    intros maps s n Hs Hn. rewrite <- off_in_total in Hn. destruct (locate _ _ _ Hn) as [pre [t [post [i [E [Es [Hi En]]]]]]].
    rewrite volume_prod in Hi. destruct (row_major_surj _ _ Hi) as [idx [Hlt Hr]].
    assert (Ht : In t (tuples maps)) by (rewrite E; apply in_or_app; right; now left).
    assert (HL : length (map fst t) = length idx) by (apply Forall2_len in Hlt; rewrite map_length in *; lia).
    exists (combine (map fst t) idx).
    pose proof (tuple_dims maps t Hs Ht) as Hd. split.
    - apply in_range_dims; auto. rewrite combine_map_fst, combine_map_snd by auto. eauto.
    - unfold fuse, total. rewrite combine_map_fst, combine_map_snd by auto.
      rewrite (dims_in_dims_of _ _ _ Hd), flat_index_row_major, Hr. fold (total t). rewrite Es. f_equal.
      rewrite <- (off_in_offset maps pre t post Hs E). now rewrite Es.
  Qed.
End Offsets.
