(** The data-moving kernels copy exactly the address pairs of the loop nest. *)
From Coq Require Import List Bool Arith Lia Permutation.
From Verif Require Import Base.Outcome Base.SMap Model.Symmetry Model.Edge Model.Core Model.Transpose
  Proof.LoopFacts Proof.ElemFacts.
Import ListNotations.

(** address pairs visited by the loop nest, last axis fastest (axes are listed last first) *)
Definition shift (a : axis) (sd : nat * nat) (i : nat) : nat * nat :=
  (i * ax_ls a + fst sd, i * ax_ld a + snd sd).
Fixpoint pairs (axes : list axis) : list (nat * nat) :=
  match axes with
  | [] => [(0, 0)]
  | a :: rest => flat_map (fun sd => map (shift a sd) (seq 0 (ax_dim a))) (pairs rest)
  end.

Lemma pairs_length : forall axes, length (pairs axes) = axes_size axes.
Proof.
  induction axes as [|a axes IH]; [reflexivity|]. simpl.
  rewrite (length_flat_map_const _ _ _ _ (ax_dim a)).
  - rewrite IH. unfold axes_size. simpl. lia.
  - intros. now rewrite map_length, seq_length.
Qed.

Section Copy.
  Context {R : Type} {RR : Scalar R}.
  Variables (parity : bool) (src : list R) (sb db : nat).
  Definition sgn (v : R) : R := if parity then ropp v else v.

  Definition copy_pair (dst : list R) (sd : nat * nat) : res (list R) :=
    copy_cell parity src (sb + fst sd) dst (db + snd sd).
  Definition copy_all (ps : list (nat * nat)) (dst : list R) : res (list R) := foldM copy_pair ps dst.

  Lemma copy_cell_ok : forall s d dst, s < length src -> d < length dst ->
    exists v dst', copy_cell parity src s dst d = Ok dst' /\ nth_error src s = Some v /\
      update dst d (sgn v) = Some dst'.
  Proof.
    intros s d dst Hs Hd. unfold copy_cell.
    destruct (nth_error src s) as [v|] eqn:E; [|apply nth_error_None in E; lia].
    destruct (update_some dst d (sgn v) Hd) as [dst' Hu].
    exists v, dst'. simpl. fold (sgn v). rewrite Hu. auto.
  Qed.

  Lemma copy_all_ok : forall ps dst,
    (forall sd, In sd ps -> sb + fst sd < length src /\ db + snd sd < length dst) ->
    NoDup (map snd ps) ->
    exists dst', copy_all ps dst = Ok dst' /\ length dst' = length dst /\
      (forall s d, In (s, d) ps -> exists v, nth_error src (sb + s) = Some v /\ nth_error dst' (db + d) = Some (sgn v)) /\
      (forall j, (forall s d, In (s, d) ps -> j <> db + d) -> nth_error dst' j = nth_error dst j).
  Proof.
    induction ps as [|[s d] ps IH]; intros dst Hb Hn.
    - exists dst. simpl. repeat split; auto. intros s d [].
    - destruct (Hb (s, d) (or_introl eq_refl)) as [Hs Hd]. simpl in Hs, Hd.
      destruct (copy_cell_ok _ _ dst Hs Hd) as [v [dst1 [E1 [E2 E3]]]].
      pose proof (update_length _ _ _ _ E3) as HL. inversion Hn as [|? ? Hnot Hn']; subst.
      destruct (IH dst1) as [dst' [E [L [P1 P2]]]].
      + intros sd Hsd. rewrite HL. apply Hb. now right.
      + exact Hn'.
      + exists dst'. split; [|split; [congruence|split]].
        * unfold copy_all. simpl. unfold copy_pair at 1. simpl. rewrite E1. exact E.
        * intros s0 d0 [E0|Hin].
          -- injection E0 as <- <-. exists v. split; auto. rewrite P2.
             ++ now apply update_same in E3.
             ++ intros s1 d1 Hin Heq. apply Hnot. assert (d = d1) by lia. subst.
                change d1 with (snd (s1, d1)). now apply in_map.
          -- auto.
        * intros j Hj. rewrite P2.
          -- apply (update_other _ _ _ _ _ E3). apply (Hj s d). now left.
          -- intros s0 d0 Hin. apply (Hj s0 d0). now right.
  Qed.

  (** ** the odometer *)
  Definition addr (f : axis -> nat) (st : kstate) : nat := fold_right (fun ia n => fst ia * f (snd ia) + n) 0 st.
  Definition axes_of (st : kstate) : list axis := map snd st.
  Definition st_ok (st : kstate) : Prop := Forall (fun ia => fst ia < ax_dim (snd ia)) st.
  Definition here (st : kstate) : nat * nat := (addr ax_ls st, addr ax_ld st).

  (** pairs still to visit, the current one included *)
  Fixpoint remaining (st : kstate) : list (nat * nat) :=
    match st with
    | [] => [(0, 0)]
    | (i, a) :: rest =>
        map (shift a (here rest)) (seq i (ax_dim a - i))
        ++ flat_map (fun sd => map (shift a sd) (seq 0 (ax_dim a))) (tl (remaining rest))
    end.

  Lemma remaining_head : forall st, st_ok st -> exists l, remaining st = here st :: l.
  Proof.
    intros [|[i a] st] H; simpl; [eauto|]. inversion H as [|? ? Hi _]; subst. simpl in Hi.
    replace (ax_dim a - i) with (Datatypes.S (ax_dim a - i - 1)) by lia. simpl.
    unfold here, shift. simpl. eauto.
  Qed.

  Lemma remaining_start : forall axes, Forall (fun a => 0 < ax_dim a) axes -> remaining (start_state axes) = pairs axes.
  Proof.
    induction axes as [|a axes IH]; intro H; [reflexivity|]. inversion H as [|? ? Ha Hr]; subst.
    simpl. fold (start_state axes).
    assert (Hok : st_ok (start_state axes)).
    { unfold st_ok, start_state. rewrite Forall_map. simpl. exact Hr. }
    destruct (remaining_head _ Hok) as [l El]. rewrite <- (IH Hr), El. simpl.
    now rewrite Nat.sub_0_r.
  Qed.

  Lemma carry_spec : forall st s d, st_ok st -> s = addr ax_ls st -> d = addr ax_ld st ->
    match carry st s d with
    | None => remaining st = [here st]
    | Some (st', s', d') =>
        st_ok st' /\ axes_of st' = axes_of st /\ s' = addr ax_ls st' /\ d' = addr ax_ld st' /\
        remaining st = here st :: remaining st'
    end.
  Proof.
    induction st as [|[i a] st IH]; intros s d H Es Ed; [reflexivity|].
    inversion H as [|? ? Hi Hst]; subst. simpl in Hi.
    cbn [carry]. simpl (fst (i, a)). simpl (snd (i, a)).
    destruct (Nat.eqb_spec (i + 1) (ax_dim a)) as [Hc|Hc].
    - set (s0 := addr ax_ls ((i, a) :: st) + ax_ls a - ax_dim a * ax_ls a).
      set (d0 := addr ax_ld ((i, a) :: st) + ax_ld a - ax_dim a * ax_ld a).
      assert (Es : s0 = addr ax_ls st) by (unfold s0; simpl; rewrite <- Hc; nia).
      assert (Ed : d0 = addr ax_ld st) by (unfold d0; simpl; rewrite <- Hc; nia).
      specialize (IH s0 d0 Hst Es Ed).
      destruct (remaining_head st Hst) as [l El].
      destruct (carry st s0 d0) as [[[st' s'] d']|].
      + destruct IH as [Hok [Hax [Es' [Ed' Hr]]]]. repeat split.
        * constructor; simpl; [lia|exact Hok].
        * simpl. now rewrite Hax.
        * simpl. exact Es'.
        * simpl. exact Ed'.
        * destruct (remaining_head st' Hok) as [l' El'].
          simpl. rewrite Hr. simpl. rewrite El'. simpl.
          replace (ax_dim a - i) with 1 by lia. rewrite Nat.sub_0_r. reflexivity.
      + simpl. rewrite IH. simpl. replace (ax_dim a - i) with 1 by lia. reflexivity.
    - repeat split.
      + constructor; simpl; [lia|exact Hst].
      + simpl. lia.
      + simpl. lia.
      + simpl. replace (ax_dim a - i) with (Datatypes.S (ax_dim a - (i + 1))) by lia. simpl.
        replace (Datatypes.S i) with (i + 1) by lia. reflexivity.
  Qed.

  Lemma kernel_plain_eq : forall fuel st dst, st <> [] -> st_ok st -> length (remaining st) <= fuel ->
    kernel_plain fuel parity src sb db st (addr ax_ls st) (addr ax_ld st) dst = copy_all (remaining st) dst.
  Proof.
    induction fuel as [|fuel IH]; intros st dst Hne Hok Hlen.
    - destruct (remaining_head st Hok) as [l E]. rewrite E in Hlen. simpl in Hlen. lia.
    - destruct (remaining_head st Hok) as [l El].
      pose proof (carry_spec st _ _ Hok eq_refl eq_refl) as C.
      destruct st as [|x st0] eqn:Est; [congruence|]. rewrite <- Est in *.
      assert (EQ : kernel_plain (Datatypes.S fuel) parity src sb db st (addr ax_ls st) (addr ax_ld st) dst =
        bind (copy_pair dst (here st)) (fun dst' =>
          match carry st (addr ax_ls st) (addr ax_ld st) with
          | None => Ok dst'
          | Some (st', s', d') => kernel_plain fuel parity src sb db st' s' d' dst'
          end)) by (rewrite Est; reflexivity).
      rewrite EQ. clear EQ.
      destruct (carry st (addr ax_ls st) (addr ax_ld st)) as [[[st' s'] d']|].
      + destruct C as [Hok' [Hax [-> [-> Hr]]]]. rewrite Hr. unfold copy_all. simpl.
        destruct (copy_pair dst (here st)); simpl; auto.
        apply IH; auto.
        * intro E'. rewrite E' in Hax. rewrite Est in Hax. discriminate.
        * rewrite Hr in Hlen. simpl in Hlen. lia.
      + rewrite C. unfold copy_all. simpl. reflexivity.
  Qed.

  (** ** contiguous inner runs *)
  Lemma copy_line_eq : forall n s d dst,
    copy_line n parity src (sb + s) (db + d) dst = copy_all (map (fun k => (s + k, d + k)) (seq 0 n)) dst.
  Proof.
    intros n. assert (G : forall n k s d dst, copy_line n parity src (sb + s + k) (db + d + k) dst =
        copy_all (map (fun k => (s + k, d + k)) (seq k n)) dst).
    { induction n0 as [|n0 IH]; intros k s d dst; [reflexivity|]. simpl. unfold copy_all. simpl.
      unfold copy_pair at 1. simpl. rewrite !Nat.add_assoc.
      destruct (copy_cell parity src (sb + s + k) dst (db + d + k)); simpl; auto.
      rewrite <- (IH (Datatypes.S k)). f_equal; lia. }
    intros. rewrite <- (G n 0). f_equal; lia.
  Qed.

  Definition line_pairs (L : nat) (sd : nat * nat) : list (nat * nat) :=
    map (fun k => (fst sd + k, snd sd + k)) (seq 0 L).

  Lemma kernel_line_eq : forall fuel L a rest dst,
    L = ax_dim a * ax_ls a -> L = ax_dim a * ax_ld a -> st_ok rest -> length (remaining rest) <= fuel ->
    kernel_line fuel parity L src sb db ((0, a) :: rest) (addr ax_ls rest) (addr ax_ld rest) dst
    = copy_all (flat_map (line_pairs L) (remaining rest)) dst.
  Proof.
    induction fuel as [|fuel IH]; intros L a rest dst E1 E2 Hok Hlen.
    - destruct (remaining_head rest Hok) as [l E]. rewrite E in Hlen. simpl in Hlen. lia.
    - pose proof (carry_spec rest _ _ Hok eq_refl eq_refl) as C.
      cbn [kernel_line]. rewrite copy_line_eq.
      replace (addr ax_ls rest + L - ax_dim a * ax_ls a) with (addr ax_ls rest) by lia.
      replace (addr ax_ld rest + L - ax_dim a * ax_ld a) with (addr ax_ld rest) by lia.
      destruct (carry rest (addr ax_ls rest) (addr ax_ld rest)) as [[[st' s'] d']|].
      + destruct C as [Hok' [Hax [-> [-> Hr]]]]. rewrite Hr. simpl. unfold copy_all at 2. rewrite foldM_app.
        change (map (fun k : nat => (addr ax_ls rest + k, addr ax_ld rest + k)) (seq 0 L)) with (line_pairs L (here rest)).
        unfold copy_all. destruct (foldM copy_pair (line_pairs L (here rest)) dst); simpl; auto.
        apply IH; auto. rewrite Hr in Hlen. simpl in Hlen. lia.
      + rewrite C. simpl. rewrite app_nil_r.
        change (map (fun k : nat => (addr ax_ls rest + k, addr ax_ld rest + k)) (seq 0 L)) with (line_pairs L (here rest)).
        unfold copy_all. destruct (foldM _ _ _); reflexivity.
  Qed.

  (** axes (last first) forming one contiguous run starting at stride e *)
  Fixpoint contiguous (e : nat) (axes : list axis) : Prop :=
    match axes with
    | [] => True
    | a :: rest => ax_ls a = e /\ ax_ld a = e /\ contiguous (e * ax_dim a) rest
    end.

  Lemma flat_map_seq : forall n K, flat_map (fun k => map (fun i => i + n * k) (seq 0 n)) (seq 0 K) = seq 0 (n * K).
  Proof.
    intros n K. induction K as [|K IH]; [now rewrite Nat.mul_0_r|].
    rewrite seq_S, flat_map_app, IH. simpl. rewrite app_nil_r.
    replace (n * Datatypes.S K) with (n * K + n) by lia. rewrite seq_app. f_equal.
    clear IH. assert (G : forall m j, map (fun i => i + n * K) (seq j m) = seq (n * K + j) m).
    { induction m as [|m IHm]; intro j; simpl; auto. rewrite IHm. f_equal; [lia|]. f_equal. lia. }
    rewrite G. f_equal. lia.
  Qed.

  Lemma contiguous_pairs : forall axes e, contiguous e axes ->
    pairs axes = map (fun k => (e * k, e * k)) (seq 0 (axes_size axes)).
  Proof.
    induction axes as [|a axes IH]; intros e H.
    - simpl. now rewrite !Nat.mul_0_r.
    - destruct H as [H1 [H2 H3]]. simpl. rewrite (IH _ H3).
      change (axes_size (a :: axes)) with (ax_dim a * axes_size axes).
      rewrite <- flat_map_seq. 
      rewrite (flat_map_concat_map _ (map _ _)), map_map, <- flat_map_concat_map.
      rewrite (flat_map_concat_map _ (seq 0 (axes_size axes))).
      rewrite (flat_map_concat_map (fun k => map (fun i => i + ax_dim a * k) _) (seq 0 (axes_size axes))).
      rewrite concat_map, map_map. f_equal. apply map_ext. intro k. rewrite map_map. apply map_ext. intro i.
      unfold shift. simpl. rewrite H1, H2. f_equal; nia.
  Qed.

  Definition plus2 (x y : nat * nat) : nat * nat := (fst x + fst y, snd x + snd y).
  Lemma flat_map_flat_map : forall A B C (f : B -> list C) (g : A -> list B) l,
    flat_map f (flat_map g l) = flat_map (fun x => flat_map f (g x)) l.
  Proof. induction l; simpl; auto. now rewrite flat_map_app, IHl. Qed.
  Lemma flat_map_map : forall A B C (f : B -> list C) (g : A -> B) l,
    flat_map f (map g l) = flat_map (fun x => f (g x)) l.
  Proof. induction l; simpl; auto. now rewrite IHl. Qed.
  Lemma map_flat_map : forall A B C (f : B -> C) (g : A -> list B) l,
    map f (flat_map g l) = flat_map (fun x => map f (g x)) l.
  Proof. induction l; simpl; auto. now rewrite map_app, IHl. Qed.

  Lemma pairs_app : forall l r,
    pairs (l ++ r) = flat_map (fun tail => map (fun x => plus2 x tail) (pairs l)) (pairs r).
  Proof.
    induction l as [|a l IH]; intro r; simpl.
    - assert (G : forall ps : list (nat * nat), flat_map (fun tail => [plus2 (0, 0) tail]) ps = ps).
      { induction ps as [|[s d] ps IHp]; simpl; auto. now rewrite IHp. }
      now rewrite G.
    - rewrite IH, flat_map_flat_map. apply flat_map_ext. intro tail.
      rewrite flat_map_map, map_flat_map. apply flat_map_ext. intro x.
      rewrite map_map. apply map_ext. intro i. unfold shift, plus2. simpl. f_equal; lia.
  Qed.

  Lemma line_run_spec : forall oob axes e a0 r0, axes = a0 :: r0 -> ax_ls a0 = e -> ax_ld a0 = e ->
    exists inner a rest L, line_run oob axes e = (a :: rest, L) /\ axes = inner ++ a :: rest /\
      contiguous e (inner ++ [a]) /\ L = e * axes_size (inner ++ [a]) /\
      L = ax_dim a * ax_ls a /\ L = ax_dim a * ax_ld a.
  Proof.
    intros oob axes. induction axes as [|a axes IH]; intros e a0 r0 E H1 H2; [discriminate|].
    injection E as <- <-. simpl. destruct axes as [|b axes].
    - exists [], a, [], (e * ax_dim a). destruct oob; simpl; unfold axes_size; simpl; repeat split; auto; nia.
    - destruct (Nat.eqb_spec (ax_ls b) (e * ax_dim a)) as [Hb|Hb]; simpl.
      + destruct (Nat.eqb_spec (ax_ld b) (e * ax_dim a)) as [Hd|Hd]; simpl.
        * destruct (IH (e * ax_dim a) b axes eq_refl Hb Hd) as [inner [c [rest [L [E1 [E2 [E3 [E4 [E5 E6]]]]]]]]].
          exists (a :: inner), c, rest, L. simpl in E1. rewrite E1. repeat split; auto.
          -- simpl. now rewrite E2.
          -- rewrite E4. simpl. unfold axes_size. simpl. nia.
        * exists [], a, (b :: axes), (e * ax_dim a). unfold axes_size. simpl. repeat split; auto; nia.
      + exists [], a, (b :: axes), (e * ax_dim a). unfold axes_size. simpl. repeat split; auto; nia.
  Qed.

  Lemma st_ok_start : forall axes, Forall (fun a => 0 < ax_dim a) axes -> st_ok (start_state axes).
  Proof. intros axes H. unfold st_ok, start_state. rewrite Forall_map. exact H. Qed.
  Lemma addr_start : forall f axes, addr f (start_state axes) = 0.
  Proof. intros f. induction axes as [|a axes IH]; simpl; auto. Qed.

  Lemma run_kernel_eq : forall oob axes dst, axes <> [] -> Forall (fun a => 0 < ax_dim a) axes ->
    run_kernel oob parity axes src sb db dst = copy_all (pairs axes) dst.
  Proof.
    intros oob axes dst Hne Hpos. unfold run_kernel. destruct axes as [|a0 r0] eqn:Ea; [congruence|]. rewrite <- Ea in *.
    destruct (Nat.eqb (ax_ls a0) 1 && Nat.eqb (ax_ld a0) 1) eqn:E.
    - apply andb_prop in E as [E1 E2]. apply Nat.eqb_eq in E1, E2.
      destruct (line_run_spec oob axes 1 a0 r0 Ea E1 E2) as [inner [a [rest [L [EL [Eax [Hc [HL [HL1 HL2]]]]]]]]].
      rewrite EL.
      assert (Hr : Forall (fun a => 0 < ax_dim a) rest).
      { rewrite Eax in Hpos. apply Forall_app in Hpos as [_ Hpos]. now inversion Hpos. }
      pose proof (kernel_line_eq (1 + axes_size axes) L a (start_state rest) dst HL1 HL2) as K.
      rewrite !addr_start in K. change (start_state (a :: rest)) with ((0, a) :: start_state rest). rewrite K.
      + rewrite remaining_start by auto. f_equal. rewrite Eax.
        replace (inner ++ a :: rest) with ((inner ++ [a]) ++ rest) by now rewrite <- app_assoc.
        rewrite pairs_app. apply flat_map_ext. intro tail. rewrite (contiguous_pairs _ 1 Hc).
        unfold line_pairs. rewrite map_map. rewrite HL, Nat.mul_1_l. apply map_ext. intro k.
        unfold plus2. simpl. f_equal; lia.
      + now apply st_ok_start.
      + rewrite remaining_start, pairs_length by auto. rewrite Eax.
        assert (HA : forall l r, axes_size (l ++ r) = axes_size l * axes_size r).
        { unfold axes_size. induction l; simpl; intros; [lia|]. rewrite IHl. lia. }
        rewrite HA. change (axes_size (a :: rest)) with (ax_dim a * axes_size rest).
        assert (0 < axes_size inner * ax_dim a).
        { rewrite Eax in Hpos. clear - Hpos. induction inner as [|b inner IH]; simpl in Hpos; inversion Hpos; subst.
          - unfold axes_size. simpl. lia.
          - specialize (IH H2). unfold axes_size in *. simpl. nia. }
        nia.
    - pose proof (kernel_plain_eq (1 + axes_size axes) (start_state axes) dst) as K.
      rewrite !addr_start in K. rewrite K.
      + now rewrite remaining_start.
      + rewrite Ea. discriminate.
      + now apply st_ok_start.
      + rewrite remaining_start, pairs_length by auto. lia.
  Qed.
End Copy.

(** ** order of the axes does not matter *)
Lemma flat_map_perm : forall A B (f g : A -> list B) l, (forall x, Permutation (f x) (g x)) ->
  Permutation (flat_map f l) (flat_map g l).
Proof. induction l as [|x l IH]; simpl; intros H; auto. apply Permutation_app; auto. Qed.
Lemma flat_map_swap : forall A B C (f : A -> B -> C) (la : list A) (lb : list B),
  Permutation (flat_map (fun a => map (f a) lb) la) (flat_map (fun b => map (fun a => f a b) la) lb).
Proof.
  intros A B C f la lb. induction la as [|a la IH]; simpl.
  - clear. induction lb; simpl; auto.
  - rewrite IH. clear IH. induction lb as [|b lb IH]; simpl; auto. apply perm_skip.
    rewrite <- IH. rewrite !app_assoc. apply Permutation_app_tail. apply Permutation_app_comm.
Qed.
Lemma pairs_perm : forall a1 a2, Permutation a1 a2 -> Permutation (pairs a1) (pairs a2).
Proof.
  induction 1; simpl.
  - auto.
  - now apply Permutation_flat_map.
  - rewrite !flat_map_flat_map. apply flat_map_perm. intro sd.
    rewrite !flat_map_map.
    etransitivity; [|apply (flat_map_swap _ _ _ (fun i j => shift x (shift y sd j) i) (seq 0 (ax_dim x)) (seq 0 (ax_dim y)))].
    apply flat_map_perm. intro j. erewrite map_ext; [reflexivity|]. intro i. unfold shift. simpl. f_equal; lia.
  - etransitivity; eauto.
Qed.
