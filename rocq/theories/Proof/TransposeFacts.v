(** do_transpose copies every element to its permuted address: both loop orders, all sizes. *)
From Coq Require Import List Bool Arith Lia Permutation ZArith.
From Verif Require Import Base.Outcome Base.SMap Model.Symmetry Model.Edge Model.Core Model.Transpose
  Spec.Strided Proof.LoopFacts Proof.ElemFacts Proof.KernelFacts.
Import ListNotations.

(** ** index tuples of a loop nest *)
Fixpoint enum (dims : list nat) : list (list nat) :=
  match dims with
  | [] => [[]]
  | d :: rest => flat_map (fun tl => map (fun i => i :: tl) (seq 0 d)) (enum rest)
  end.
Lemma in_enum : forall dims idx, In idx (enum dims) <-> index_below idx dims.
Proof.
  unfold index_below. induction dims as [|d dims IH]; intro idx; simpl.
  - split; [intros [<-|[]]; constructor|intro H; inversion H; auto].
  - rewrite in_flat_map. split.
    + intros [tl [Ht Hi]]. apply in_map_iff in Hi as [i [<- Hi]]. apply in_seq in Hi.
      constructor; [lia|now apply IH].
    + intro H. inversion H as [|i ? tl ? Hi Ht]; subst. exists tl. split; [now apply IH|].
      apply in_map_iff. exists i. split; auto. apply in_seq. lia.
Qed.
Lemma NoDup_flat_map_cons : forall A (l : list A) (t : list (list A)), NoDup l -> NoDup t ->
  NoDup (flat_map (fun tl => map (fun i => i :: tl) l) t).
Proof.
  intros A l t Hl. induction t as [|x t IH]; intro Ht; simpl; [constructor|].
  inversion Ht as [|? ? Hx Ht']; subst. specialize (IH Ht').
  assert (H1 : NoDup (map (fun i => i :: x) l)).
  { clear - Hl. induction l as [|a l IHl]; simpl; constructor.
    - intro H. apply in_map_iff in H as [b [E Hb]]. injection E as ->. now inversion Hl.
    - apply IHl. now inversion Hl. }
  assert (H2 : forall y, In y (map (fun i => i :: x) l) -> ~ In y (flat_map (fun tl => map (fun i => i :: tl) l) t)).
  { intros y Hy Hn. apply in_map_iff in Hy as [i [<- _]]. apply in_flat_map in Hn as [tl [Ht2 Hn]].
    apply in_map_iff in Hn as [j [E _]]. injection E as _ ->. contradiction. }
  revert H1 H2. generalize (map (fun i => i :: x) l) as L. induction L as [|y L IHL]; simpl; intros H1 H2; auto.
  inversion H1; subst. constructor; auto. rewrite in_app_iff. intros [H|H]; auto. eapply H2; eauto.
Qed.
Lemma enum_nodup : forall dims, NoDup (enum dims).
Proof.
  induction dims as [|d dims IH]; simpl; [constructor; [intros []|constructor]|].
  apply NoDup_flat_map_cons; auto. apply seq_NoDup.
Qed.
Lemma pairs_enum : forall axes,
  pairs axes = map (fun idx => (dot idx (map ax_ls axes), dot idx (map ax_ld axes))) (enum (map ax_dim axes)).
Proof.
  induction axes as [|a axes IH]; [reflexivity|]. simpl. rewrite IH, flat_map_map, map_flat_map.
  apply flat_map_ext. intro tl. rewrite map_map. apply map_ext. intro i. reflexivity.
Qed.

Lemma axes_size_prod : forall axes, axes_size axes = prod (map ax_dim axes).
Proof. unfold axes_size, prod. induction axes; simpl; auto. Qed.

Lemma dot_sum : forall n idx st, length idx = n -> length st = n ->
  dot idx st = list_sum (map (fun i => nth i idx 0 * nth i st 0) (seq 0 n)).
Proof.
  induction n as [|n IH]; intros [|i idx] [|s st] H1 H2; simpl in *; try lia; auto.
  rewrite <- seq_shift, map_map. rewrite (IH idx st) by lia. reflexivity.
Qed.
Lemma list_sum_perm : forall l1 l2, Permutation l1 l2 -> list_sum l1 = list_sum l2.
Proof. induction 1; simpl; lia. Qed.

Lemma NoDup_full : forall n U, NoDup U -> (forall u, In u U -> u < n) -> length U = n -> Permutation U (seq 0 n).
Proof.
  intros n U Hn Hb HL. apply NoDup_Permutation_bis; auto.
  - rewrite seq_length. lia.
  - intros u Hu. apply in_seq. specialize (Hb u Hu). lia.
Qed.

Lemma inverse_plans_perm : forall rank s2d d2s, inverse_plans rank s2d d2s ->
  Permutation d2s (seq 0 rank) /\ Permutation s2d (seq 0 rank).
Proof.
  intros rank s2d d2s [L1 [L2 [H1 H2]]]. split; apply NoDup_full; auto.
  - apply (NoDup_nth _ 0). intros i j Hi Hj E. rewrite L2 in *.
    rewrite <- (proj2 (H2 i Hi)), <- (proj2 (H2 j Hj)), E. reflexivity.
  - intros u Hu. apply (In_nth _ _ 0) in Hu as [i [Hi <-]]. rewrite L2 in Hi. now apply H2.
  - apply (NoDup_nth _ 0). intros i j Hi Hj E. rewrite L1 in *.
    rewrite <- (proj2 (H1 i Hi)), <- (proj2 (H1 j Hj)), E. reflexivity.
  - intros u Hu. apply (In_nth _ _ 0) in Hu as [i [Hi <-]]. rewrite L1 in Hi. now apply H1.
Qed.
Lemma inverse_plans_sym : forall rank s2d d2s, inverse_plans rank s2d d2s -> inverse_plans rank d2s s2d.
Proof. intros rank s2d d2s [L1 [L2 [H1 H2]]]. repeat split; auto; try apply H2; try apply H1; auto. Qed.

(** ** the in-turn selection of axes *)
Section Side.
  Variable rank : nat.
  (** what one side (source or destination) knows after the axes [U] of that side have been used *)
  Definition side (U : list nat) (mask : list bool) (c : nat) (ex : bool) : Prop :=
    length mask = rank /\ c < rank /\ (forall p, c < p < rank -> In p U) /\
    (ex = true -> forall p, p < rank -> In p U) /\
    (ex = false -> ~ In c U /\ forall p, p <= c -> (nth p mask false = true <-> In p U)).

  Lemma side_true : forall U mask c, length mask = rank -> c < rank -> (forall p, p < rank -> In p U) -> side U mask c true.
  Proof.
    intros U mask c HL Hc H. split; [exact HL|]. split; [exact Hc|]. split; [intros p Hp; apply H; lia|].
    split; [intros _; exact H|discriminate].
  Qed.
  Lemma side_false : forall U mask c, length mask = rank -> c < rank -> (forall p, c < p < rank -> In p U) ->
    nth c mask false = false -> (forall p, p <= c -> (nth p mask false = true <-> In p U)) -> side U mask c false.
  Proof.
    intros U mask c HL Hc Hhi E Hlo. split; [exact HL|]. split; [exact Hc|]. split; [exact Hhi|].
    split; [discriminate|]. intros _. split; [|exact Hlo]. intro HI. apply Hlo in HI; [congruence|lia].
  Qed.
  Lemma skip_spec : forall U mask c, length mask = rank -> c < rank ->
    (forall p, c < p < rank -> In p U) -> (forall p, p <= c -> (nth p mask false = true <-> In p U)) ->
    let '(c', ex') := skip_masked mask c false in side U mask c' ex'.
  Proof.
    intros U mask. induction c as [|c IH]; intros HL Hc Hhi Hlo; cbn [skip_masked].
    - destruct (nth 0 mask false) eqn:E.
      + apply side_true; auto. intros p Hp. destruct p; [now apply Hlo|]. apply Hhi. lia.
      + now apply side_false.
    - destruct (nth (Datatypes.S c) mask false) eqn:E.
      + apply IH; auto; try lia. intros p Hp. destruct (Nat.eq_dec p (Datatypes.S c)) as [->|]; [now apply Hlo|apply Hhi; lia].
      + now apply side_false.
  Qed.
  Lemma step_spec : forall U mask c, length mask = rank -> c < rank ->
    (forall p, c <= p < rank -> In p U) -> (forall p, p < c -> (nth p mask false = true <-> In p U)) ->
    let '(c', ex') := step_masked mask c false in side U mask c' ex'.
  Proof.
    intros U mask. induction c as [|c IH]; intros HL Hc Hhi Hlo; cbn [step_masked].
    - apply side_true; auto. intros p Hp. apply Hhi. lia.
    - destruct (nth c mask false) eqn:E.
      + apply IH; auto; try lia. intros p Hp. destruct (Nat.eq_dec p c) as [->|]; [apply Hlo; auto|apply Hhi; lia].
      + apply side_false; [exact HL|lia|intros p Hp; apply Hhi; lia|exact E|].
        intros p Hp. exact (Hlo p ltac:(lia)).
  Qed.
End Side.

Lemma set_true_length : forall mask i, length (set_true mask i) = length mask.
Proof.
  intros mask i. unfold set_true. rewrite <- (firstn_skipn i mask) at 3. rewrite !app_length. f_equal.
  now destruct (skipn i mask).
Qed.
Lemma set_true_nth : forall mask i p, i < length mask ->
  nth p (set_true mask i) false = if Nat.eqb p i then true else nth p mask false.
Proof.
  unfold set_true. induction mask as [|b mask IH]; intros i p H; simpl in H; [lia|].
  destruct i; simpl.
  - destruct p; reflexivity.
  - destruct p; simpl; [reflexivity|]. apply IH. lia.
Qed.

Section Plans.
  Variables (rank : nat) (s2d d2s dims_src dims_dst ls ld : list nat).
  Hypothesis Hplan : inverse_plans rank s2d d2s.
  Hypothesis Hds : length dims_src = rank.
  Hypothesis Hls : length ls = rank.
  Hypothesis Hld : length ld = rank.
  Hypothesis Hdd : dims_dst = permuted 0 d2s dims_src.

  Definition axis_of (i : nat) : axis := mkAxis (nth i dims_src 0) (nth i ls 0) (nth (nth i s2d 0) ld 0).

  Lemma dims_dst_nth : forall j, j < rank -> nth j dims_dst 0 = nth (nth j d2s 0) dims_src 0.
  Proof.
    intros j Hj. rewrite Hdd. unfold permuted. destruct Hplan as [_ [L _]].
    rewrite (nth_indep _ 0 (nth 0 dims_src 0)) by (rewrite map_length; lia).
    now rewrite (map_nth (fun j => nth j dims_src 0)).
  Qed.

  Lemma simple_axes_eq : simple_axes d2s dims_dst ls ld = rev (map axis_of d2s).
  Proof.
    unfold simple_axes. f_equal. pose proof Hplan as [L1 [L2 [H1 H2]]].
    assert (HLd : length dims_dst = rank) by (rewrite Hdd; unfold permuted; rewrite map_length; auto).
    apply (nth_ext _ _ (mkAxis 0 0 0) (mkAxis 0 0 0)).
    - rewrite !map_length, !combine_length. lia.
    - intros j Hj. rewrite map_length, !combine_length in Hj.
      rewrite (nth_indep _ _ ((fun x => mkAxis (fst (fst x)) (nth (snd (fst x)) ls 0) (snd x)) ((0, 0), 0)))
        by (rewrite map_length, !combine_length; lia).
      rewrite (map_nth (fun x => mkAxis (fst (fst x)) (nth (snd (fst x)) ls 0) (snd x))).
      rewrite combine_nth by (rewrite combine_length; lia). rewrite combine_nth by lia. simpl.
      rewrite (nth_indep (map axis_of d2s) _ (axis_of 0)) by (rewrite map_length; lia). rewrite map_nth.
      unfold axis_of. rewrite dims_dst_nth by lia.
      destruct (H2 j) as [Hb E]; [lia|]. rewrite E. reflexivity.
  Qed.

  Definition inv (U : list nat) (st : inturn_state) : Prop :=
    NoDup U /\ (forall u, In u U -> u < rank) /\ it_axes st = map axis_of U /\
    side rank U (it_mask_s st) (it_cs st) (it_src_ex st) /\
    side rank (map (fun i => nth i s2d 0) U) (it_mask_d st) (it_cd st) (it_dst_ex st).

  Lemma not_exhausted : forall (V : list nat) mask c ex, NoDup V -> length V < rank -> side rank V mask c ex -> ex = false.
  Proof.
    intros V mask c ex Hn HL [_ [_ [_ [H _]]]]. destruct ex; auto. exfalso.
    specialize (H eq_refl).
    assert (length (seq 0 rank) <= length V).
    { apply NoDup_incl_length; [apply seq_NoDup|]. intros p Hp. apply in_seq in Hp. apply H. lia. }
    rewrite seq_length in *. lia.
  Qed.

  Lemma map_s2d_nodup : forall U, NoDup U -> (forall u, In u U -> u < rank) -> NoDup (map (fun i => nth i s2d 0) U).
  Proof.
    intros U Hn Hb. destruct Hplan as [_ [_ [H1 _]]]. induction U as [|u U IH]; simpl; constructor.
    - intro H. apply in_map_iff in H as [v [E Hv]]. inversion Hn; subst.
      assert (v = u); [|congruence].
      rewrite <- (proj2 (H1 v (Hb v (or_intror Hv)))), <- (proj2 (H1 u (Hb u (or_introl eq_refl)))), E. reflexivity.
    - apply IH; [now inversion Hn|]. intros; apply Hb; now right.
  Qed.

  Lemma use_source_inv : forall U st, inv U st -> length U < rank -> inv (U ++ [it_cs st]) (use_source s2d dims_src ls ld st).
  Proof.
    intros U st [Hn [Hb [Ha [Hs Hd]]]] HL. pose proof Hplan as [L1 [L2 [H1 H2]]].
    assert (Es : it_src_ex st = false) by (eapply not_exhausted; eauto).
    assert (Ed : it_dst_ex st = false).
    { eapply not_exhausted; [| |exact Hd]; [now apply map_s2d_nodup|now rewrite map_length]. }
    destruct Hs as [ms [mc [mhi [_ mlo]]]]. destruct Hd as [ds [dc [dhi [_ dlo]]]].
    specialize (mlo Es) as [mnot mlo]. specialize (dlo Ed) as [dnot dlo].
    set (U' := U ++ [it_cs st]). set (r := nth (it_cs st) s2d 0).
    assert (Hr : r < rank) by now apply H1.
    assert (HN : NoDup U').
    { unfold U'. rewrite <- (rev_involutive (U ++ _)), rev_app_distr. apply NoDup_rev. simpl. constructor.
      - now rewrite <- in_rev.
      - now apply NoDup_rev. }
    unfold use_source. fold r. rewrite Es, Ed.
    pose proof (skip_spec rank (map (fun i => nth i s2d 0) U') (set_true (it_mask_d st) r) (it_cd st)) as SK.
    destruct (skip_masked (set_true (it_mask_d st) r) (it_cd st) false) as [cd' dex'].
    pose proof (step_spec rank U' (it_mask_s st) (it_cs st)) as SP.
    destruct (step_masked (it_mask_s st) (it_cs st) false) as [cs' sex'].
    unfold inv. simpl. split; [exact HN|]. split.
    { intros u Hu. apply in_app_iff in Hu as [Hu|[<-|[]]]; auto. }
    split; [|split].
    - rewrite Ha. unfold U'. rewrite map_app. reflexivity.
    - apply SP; auto.
      + intros p Hp. apply in_app_iff. destruct (Nat.eq_dec p (it_cs st)) as [->|]; [right; now left|left; apply mhi; lia].
      + intros p Hp. rewrite mlo by lia. unfold U'. rewrite in_app_iff. simpl. split; [tauto|]. intros [H|[H|[]]]; auto. lia.
    - apply SK; auto.
      + now rewrite set_true_length.
      + intros p Hp. unfold U'. rewrite map_app. apply in_app_iff. left. now apply dhi.
      + intros p Hp. rewrite set_true_nth by lia. unfold U'. rewrite map_app, in_app_iff. simpl. fold r.
        destruct (Nat.eqb_spec p r) as [->|Hne]; [tauto|]. rewrite dlo by lia. split; [tauto|]. intros [H|[H|[]]]; congruence.
  Qed.

  Lemma use_destination_inv : forall U st, inv U st -> length U < rank ->
    inv (U ++ [nth (it_cd st) d2s 0]) (use_destination d2s dims_dst ls ld st).
  Proof.
    intros U st [Hn [Hb [Ha [Hs Hd]]]] HL. pose proof Hplan as [L1 [L2 [H1 H2]]].
    assert (Es : it_src_ex st = false) by (eapply not_exhausted; eauto).
    assert (Ed : it_dst_ex st = false).
    { eapply not_exhausted; [| |exact Hd]; [now apply map_s2d_nodup|now rewrite map_length]. }
    destruct Hs as [ms [mc [mhi [_ mlo]]]]. destruct Hd as [ds [dc [dhi [_ dlo]]]].
    specialize (mlo Es) as [mnot mlo]. specialize (dlo Ed) as [dnot dlo].
    set (r := nth (it_cd st) d2s 0). set (U' := U ++ [r]).
    assert (Hr : r < rank) by now apply H2.
    assert (Er : nth r s2d 0 = it_cd st) by now apply H2.
    assert (HrU : ~ In r U).
    { intro HI. apply dnot. rewrite <- Er. now apply (in_map (fun i => nth i s2d 0)). }
    assert (HN : NoDup U').
    { unfold U'. rewrite <- (rev_involutive (U ++ _)), rev_app_distr. apply NoDup_rev. simpl. constructor.
      - now rewrite <- in_rev.
      - now apply NoDup_rev. }
    unfold use_destination. fold r. rewrite Es, Ed.
    pose proof (skip_spec rank U' (set_true (it_mask_s st) r) (it_cs st)) as SK.
    destruct (skip_masked (set_true (it_mask_s st) r) (it_cs st) false) as [cs' sex'].
    pose proof (step_spec rank (map (fun i => nth i s2d 0) U') (it_mask_d st) (it_cd st)) as SP.
    destruct (step_masked (it_mask_d st) (it_cd st) false) as [cd' dex'].
    unfold inv. simpl. split; [exact HN|]. split.
    { intros u Hu. apply in_app_iff in Hu as [Hu|[<-|[]]]; auto. }
    split; [|split].
    - rewrite Ha. unfold U'. rewrite map_app. simpl. unfold axis_of at 3. rewrite Er.
      rewrite dims_dst_nth by auto. reflexivity.
    - apply SK; auto.
      + now rewrite set_true_length.
      + intros p Hp. unfold U'. apply in_app_iff. left. now apply mhi.
      + intros p Hp. rewrite set_true_nth by lia. unfold U'. rewrite in_app_iff. simpl.
        destruct (Nat.eqb_spec p r) as [->|Hne]; [tauto|]. rewrite mlo by lia. split; [tauto|]. intros [H|[H|[]]]; congruence.
    - apply SP; auto.
      + intros p Hp. unfold U'. rewrite map_app, in_app_iff. simpl. rewrite Er.
        destruct (Nat.eq_dec p (it_cd st)) as [->|]; [right; now left|left; apply dhi; lia].
      + intros p Hp. rewrite dlo by lia. unfold U'. rewrite map_app, in_app_iff. simpl. rewrite Er.
        split; [tauto|]. intros [H|[H|[]]]; auto. lia.
  Qed.

  Lemma inturn_loop_inv : forall n U st, inv U st -> length U + n = rank ->
    exists U', inv U' (inturn_loop s2d d2s dims_src dims_dst ls ld n st) /\ length U' = rank.
  Proof.
    induction n as [|n IH]; intros U st HI HL; simpl.
    - exists U. split; auto. lia.
    - assert (HS : inv (U ++ [it_cs st]) (use_source s2d dims_src ls ld st)) by (apply use_source_inv; auto; lia).
      assert (HD : inv (U ++ [nth (it_cd st) d2s 0]) (use_destination d2s dims_dst ls ld st)) by (apply use_destination_inv; auto; lia).
      destruct (it_dst_ex st); [|destruct (it_src_ex st); [|destruct (Nat.ltb _ _)]];
        (eapply IH; [eassumption|rewrite app_length; simpl; lia]).
  Qed.

  Lemma inturn_axes_perm : 0 < rank ->
    exists U, inturn_axes s2d d2s dims_src dims_dst ls ld rank = map axis_of U /\ Permutation U (seq 0 rank).
  Proof.
    intro Hpos. unfold inturn_axes.
    destruct (inturn_loop_inv rank [] (mkInturn (repeat false rank) (repeat false rank) [] false false (rank - 1) (rank - 1)))
      as [U [[Hn [Hb [Ha _]]] HL]]; auto.
    - assert (HS : side rank [] (repeat false rank) (rank - 1) false).
      { unfold side. rewrite repeat_length. split; [reflexivity|]. split; [lia|]. split; [intros; lia|].
        split; [discriminate|]. intros _. split; [intros []|]. intros p Hp. split; [|intros []].
        intro E. assert (HF : nth p (repeat false rank) false = false).
        { clear. revert p. induction rank; destruct p; simpl; auto. }
        congruence. }
      unfold inv. simpl. split; [constructor|]. split; [intros u []|]. split; [reflexivity|]. split; exact HS.
    - exists U. split; auto. now apply NoDup_full.
  Qed.

  Lemma axes_all : forall big, 0 < rank ->
    Permutation (if big : bool then inturn_axes s2d d2s dims_src dims_dst ls ld rank else simple_axes d2s dims_dst ls ld)
                (map axis_of (seq 0 rank)).
  Proof.
    intros [|] Hpos.
    - destruct (inturn_axes_perm Hpos) as [U [-> HP]]. now apply Permutation_map.
    - rewrite simple_axes_eq. etransitivity; [symmetry; apply Permutation_rev|].
      apply Permutation_map. now apply inverse_plans_perm with (s2d := s2d).
  Qed.

  Lemma map_nth_seq : forall A (l : list A) d n, length l = n -> map (fun i => nth i l d) (seq 0 n) = l.
  Proof.
    intros A l d n <-. apply (nth_ext _ _ d d); [now rewrite map_length, seq_length|].
    intros i Hi. rewrite map_length, seq_length in Hi.
    rewrite (nth_indep _ _ (nth 0 l d)) by now rewrite map_length, seq_length.
    rewrite (map_nth (fun i => nth i l d)). now rewrite seq_nth.
  Qed.

  Lemma dot_permuted : forall idx, length idx = rank ->
    dot idx (map (fun i => nth (nth i s2d 0) ld 0) (seq 0 rank)) = dot (permuted 0 d2s idx) ld.
  Proof.
    intros idx HL. pose proof Hplan as [L1 [L2 [H1 H2]]].
    rewrite (dot_sum rank) by (auto; now rewrite map_length, seq_length).
    rewrite (dot_sum rank (permuted 0 d2s idx)) by (auto; unfold permuted; now rewrite map_length).
    transitivity (list_sum (map (fun i => nth i idx 0 * nth (nth i s2d 0) ld 0) (seq 0 rank))).
    { f_equal. apply map_ext_in. intros i Hi. apply in_seq in Hi.
      rewrite (nth_indep (map _ _) 0 (nth (nth 0 s2d 0) ld 0)) by (rewrite map_length, seq_length; lia).
      rewrite (map_nth (fun i => nth (nth i s2d 0) ld 0)). rewrite seq_nth by lia. reflexivity. }
    transitivity (list_sum (map (fun i => nth i idx 0 * nth (nth i s2d 0) ld 0) d2s)).
    { apply list_sum_perm. apply Permutation_map. symmetry. now apply inverse_plans_perm with (s2d := s2d). }
    f_equal. transitivity (map (fun i => nth i idx 0 * nth (nth i s2d 0) ld 0) (map (fun j => nth j d2s 0) (seq 0 rank))).
    { now rewrite map_nth_seq. }
    rewrite map_map. apply map_ext_in. intros j Hj. apply in_seq in Hj.
    rewrite (proj2 (H2 j ltac:(lia))). f_equal. unfold permuted.
    rewrite (nth_indep (map _ _) 0 (nth 0 idx 0)) by (rewrite map_length; lia).
    rewrite (map_nth (fun j => nth j idx 0)). reflexivity.
  Qed.

  Lemma pairs_spec : forall axes, Permutation axes (map axis_of (seq 0 rank)) ->
    Permutation (pairs axes) (map (fun idx => (dot idx ls, dot (permuted 0 d2s idx) ld)) (enum dims_src)).
  Proof.
    intros axes HP. rewrite (pairs_perm _ _ HP), pairs_enum, !map_map. simpl.
    rewrite !map_nth_seq by auto.
    erewrite map_ext_in; [reflexivity|]. intros idx Hi. apply in_enum in Hi. apply Forall2_len in Hi.
    simpl. f_equal. apply dot_permuted. lia.
  Qed.

  Lemma prod_pos : forall l, prod l <> 0 -> Forall (fun d => 0 < d) l.
  Proof. unfold prod. induction l as [|d l IH]; simpl; intro H; constructor; [nia|]. apply IH. nia. Qed.
  Lemma prod_zero_none : forall ds idx, prod ds = 0 -> ~ index_below idx ds.
  Proof.
    intros ds idx E H. apply row_major_lt in H. lia.
  Qed.
  Lemma prod_one_all : forall ds, prod ds = 1 -> ds = repeat 1 (length ds).
  Proof.
    unfold prod. induction ds as [|d ds IH]; simpl; intro E; auto. apply Nat.eq_mul_1 in E as [-> E]. f_equal; auto.
  Qed.
  Lemma index_below_ones : forall n idx, index_below idx (repeat 1 n) -> idx = repeat 0 n.
  Proof.
    induction n as [|n IH]; intros idx H; inversion H; subst; auto. simpl. f_equal; [lia|]. now apply IH.
  Qed.
  Lemma dot_zeros : forall n st, dot (repeat 0 n) st = 0.
  Proof. induction n; intros [|s st]; simpl; auto. Qed.
  Lemma nth_zeros : forall n j, nth j (repeat 0 n) 0 = 0.
  Proof. induction n; destruct j; simpl; auto. Qed.
  Lemma permuted_zeros : forall n plan, permuted 0 plan (repeat 0 n) = repeat 0 (length plan).
  Proof. intros n plan. unfold permuted. induction plan; simpl; auto. rewrite nth_zeros. now f_equal. Qed.

  Section Run.
    Context {R : Type} {RR : Scalar R}.
    Variables (src dst : list R) (sb db : nat) (parity : bool).
    Definition src_addr (idx : list nat) : nat := sb + dot idx ls.
    Definition dst_addr (idx : list nat) : nat := db + dot (permuted 0 d2s idx) ld.
    Hypothesis Hbounds : forall idx, index_below idx dims_src -> src_addr idx < length src /\ dst_addr idx < length dst.
    Hypothesis Hdistinct : forall i1 i2, index_below i1 dims_src -> index_below i2 dims_src ->
      dst_addr i1 = dst_addr i2 -> i1 = i2.

    Lemma do_transpose_ok : forall oob big,
      exists dst', do_transpose oob big src sb dst db s2d d2s dims_src dims_dst ls ld rank (prod dims_src) parity = Ok dst' /\
        length dst' = length dst /\
        (forall idx, index_below idx dims_src -> exists v, nth_error src (src_addr idx) = Some v /\
            nth_error dst' (dst_addr idx) = Some (sgn parity v)) /\
        (forall j, (forall idx, index_below idx dims_src -> j <> dst_addr idx) -> nth_error dst' j = nth_error dst j).
    Proof.
      intros oob big. unfold do_transpose.
      destruct (Nat.eqb_spec (prod dims_src) 0) as [E0|N0].
      { exists dst. repeat split; auto. intros idx H. exfalso. eapply prod_zero_none; eauto. }
      destruct (Nat.eqb_spec (prod dims_src) 1) as [E1|N1].
      { apply prod_one_all in E1. set (z := repeat 0 (length dims_src)).
        assert (Hz : index_below z dims_src).
        { rewrite E1. unfold z. rewrite E1 at 1. rewrite repeat_length. unfold index_below.
          clear. induction (length dims_src); simpl; constructor; auto. }
        assert (Hall : forall idx, index_below idx dims_src -> idx = z).
        { intros idx H. rewrite E1 in H. now apply index_below_ones. }
        assert (Es : src_addr z = sb) by (unfold src_addr, z; rewrite dot_zeros; lia).
        assert (Ed : dst_addr z = db) by (unfold dst_addr, z; rewrite permuted_zeros, dot_zeros; lia).
        destruct (Hbounds z Hz) as [B1 B2]. rewrite Es in B1. rewrite Ed in B2.
        destruct (copy_cell_ok parity src sb db dst B1 B2) as [v [dst' [P1 [P2 P3]]]].
        exists dst'. rewrite P1. repeat split; auto.
        - eapply update_length; eauto.
        - intros idx H. rewrite (Hall idx H), Es, Ed. exists v. split; auto. eapply update_same; eauto.
        - intros j Hj. eapply update_other; eauto. rewrite <- Ed. now apply Hj. }
      assert (Hpos : 0 < rank).
      { destruct rank; [|lia]. destruct dims_src; [|discriminate]. now cbn in N1. }
      pose proof (axes_all big Hpos) as HP. cbv zeta.
      set (axes := if big then _ else _) in *.
      pose proof (pairs_spec axes HP) as HQ.
      rewrite run_kernel_eq.
      - destruct (copy_all_ok parity src sb db (pairs axes) dst) as [dst' [P1 [P2 [P3 P4]]]].
        + intros sd Hsd. apply (Permutation_in _ HQ) in Hsd. apply in_map_iff in Hsd as [idx [<- Hi]].
          apply in_enum in Hi. simpl. now apply Hbounds.
        + eapply Permutation_NoDup; [apply Permutation_map; symmetry; exact HQ|].
          rewrite map_map. simpl. assert (HD : forall i1 i2, In i1 (enum dims_src) -> In i2 (enum dims_src) ->
            dot (permuted 0 d2s i1) ld = dot (permuted 0 d2s i2) ld -> i1 = i2).
          { intros i1 i2 HI1 HI2 E. apply Hdistinct; [now apply in_enum|now apply in_enum|]. unfold dst_addr. lia. }
          revert HD. pose proof (enum_nodup dims_src) as HN. clear HQ. induction HN as [|x l Hx HN IH]; simpl; intro HD; constructor.
          * intro H. apply in_map_iff in H as [y [E Hy]]. assert (y = x) by (apply HD; auto). congruence.
          * apply IH. intros; apply HD; auto.
        + exists dst'. split; [exact P1|]. split; [exact P2|]. split.
          * intros idx Hi. apply (P3 (dot idx ls) (dot (permuted 0 d2s idx) ld)).
            apply (Permutation_in _ (Permutation_sym HQ)). apply in_map_iff. exists idx. split; auto. now apply in_enum.
          * intros j Hj. apply P4. intros s d Hsd. apply (Permutation_in _ HQ) in Hsd.
            apply in_map_iff in Hsd as [idx [E Hi]]. injection E as <- <-. apply Hj. now apply in_enum.
      - intro E. rewrite E in HP. apply Permutation_length in HP. rewrite map_length, seq_length in HP. simpl in HP. lia.
      - apply Forall_forall. intros a Ha. apply (Permutation_in _ HP) in Ha. apply in_map_iff in Ha as [i [<- Hi]].
        apply in_seq in Hi. unfold axis_of. simpl. pose proof (prod_pos _ N0) as HF. rewrite Forall_forall in HF.
        apply HF. apply nth_In. lia.
    Qed.

    Lemma do_transpose_oob_irrelevant : forall oob oob' big,
      do_transpose oob big src sb dst db s2d d2s dims_src dims_dst ls ld rank (prod dims_src) parity =
      do_transpose oob' big src sb dst db s2d d2s dims_src dims_dst ls ld rank (prod dims_src) parity.
    Proof.
      intros oob oob' big.
      destruct (do_transpose_ok oob big) as [d1 [E1 [L1 [P1 Q1]]]].
      destruct (do_transpose_ok oob' big) as [d2 [E2 [L2 [P2 Q2]]]]. rewrite E1, E2. f_equal.
      assert (HX : forall j, nth_error d1 j = nth_error d2 j).
      { intro j. destruct (in_dec Nat.eq_dec j (map dst_addr (enum dims_src))) as [HI|HN].
        - apply in_map_iff in HI as [idx [<- HI]]. apply in_enum in HI.
          destruct (P1 idx HI) as [v1 [Hv1 ->]]. destruct (P2 idx HI) as [v2 [Hv2 ->]]. congruence.
        - assert (HJ : forall idx, index_below idx dims_src -> j <> dst_addr idx).
          { intros idx HI ->. apply HN. apply in_map. now apply in_enum. }
          now rewrite Q1, Q2. }
      clear - HX L1 L2. revert d2 HX L2. rewrite <- L1. clear L1. induction d1 as [|x d1 IH]; intros [|y d2] HX L2; simpl in L2; try discriminate; auto.
      f_equal; [specialize (HX 0); now injection HX|]. apply IH; [|simpl in L2; lia].
      intro j. exact (HX (Datatypes.S j)).
    Qed.
  End Run.
End Plans.

(** ** matrix_transpose *)
Lemma matrix_transpose_ok : forall (R : Type) (RR : Scalar R) m n (src dst : list R),
  0 < m -> 0 < n -> length src = m * n -> length dst = m * n ->
  exists dst', matrix_transpose m n src dst = Ok dst' /\ length dst' = m * n /\
    forall i j, i < m -> j < n -> exists v, nth_error src (i * n + j) = Some v /\ nth_error dst' (j * m + i) = Some v.
Proof.
  intros R RR m n src dst Hm Hn Ls Ld. unfold matrix_transpose.
  set (axes := [mkAxis n 1 m; mkAxis m n 1]).
  assert (Hpos : Forall (fun a => 0 < ax_dim a) axes) by (repeat constructor; auto).
  pose proof (kernel_plain_eq false src 0 0 (1 + m * n) (start_state axes) dst) as K. rewrite !addr_start in K.
  rewrite K; clear K.
  - rewrite remaining_start by auto.
    destruct (copy_all_ok false src 0 0 (pairs axes) dst) as [dst' [P1 [P2 [P3 _]]]].
    + intros sd Hsd. rewrite pairs_enum in Hsd. apply in_map_iff in Hsd as [idx [<- Hi]]. apply in_enum in Hi.
      inversion Hi as [|j ? tl ? Hj Ht]; subst. inversion Ht as [|i ? tl' ? Hi' Ht']; subst. inversion Ht'; subst.
      simpl in *. nia.
    + rewrite pairs_enum, map_map. simpl snd.
      assert (HD : forall i1 i2, In i1 (enum (map ax_dim axes)) -> In i2 (enum (map ax_dim axes)) ->
        dot i1 (map ax_ld axes) = dot i2 (map ax_ld axes) -> i1 = i2).
      { intros i1 i2 H1 H2 E. apply in_enum in H1, H2.
        inversion H1 as [|j1 ? t1 ? Hj1 Ht1]; subst. inversion Ht1 as [|k1 ? u1 ? Hk1 Hu1]; subst. inversion Hu1; subst.
        inversion H2 as [|j2 ? t2 ? Hj2 Ht2]; subst. inversion Ht2 as [|k2 ? u2 ? Hk2 Hu2]; subst. inversion Hu2; subst.
        simpl in *. assert (j1 = j2) by nia. subst. assert (k1 = k2) by lia. now subst. }
      revert HD. pose proof (enum_nodup (map ax_dim axes)) as HN. induction HN as [|x l Hx HN IH]; intro HD; constructor.
      * intro H. apply in_map_iff in H as [y [E Hy]]. assert (y = x) by (apply HD; [now right|now left|exact E]). congruence.
      * apply IH. intros i1 i2 Hi1 Hi2. apply HD; now right.
    + exists dst'. split; [exact P1|]. split; [lia|]. intros i j Hi Hj.
      destruct (P3 (i * n + j) (j * m + i)) as [v [V1 V2]].
      * rewrite pairs_enum. apply in_map_iff. exists [j; i]. split; [simpl; f_equal; lia|]. apply in_enum. repeat constructor; auto.
      * exists v. auto.
  - discriminate.
  - now apply st_ok_start.
  - rewrite remaining_start, pairs_length by auto. unfold axes, axes_size. simpl. lia.
Qed.

(** ** reads of the stride tables *)
Lemma line_run_reads_range : forall axes e r, In r (line_run_reads axes e) ->
  (-1 <= r < Z.of_nat (length axes) - 1)%Z.
Proof.
  induction axes as [|a axes IH]; intros e r H; simpl in H; [contradiction|].
  destruct H as [<-|H]; [simpl length; lia|].
  destruct axes as [|b axes]; [contradiction|]. destruct (_ && _); [|contradiction].
  apply IH in H. simpl length in *. lia.
Qed.
Lemma line_run_reads_oob : forall axes a rest e, axes = a :: rest -> ax_ls a = e -> ax_ld a = e ->
  (In (-1)%Z (line_run_reads axes e) <-> contiguous e axes).
Proof.
  induction axes as [|a axes IH]; intros a0 rest e E H1 H2; [discriminate|]. injection E as <- <-.
  simpl. destruct axes as [|b axes].
  - simpl. split; auto.
  - change (length (b :: axes)) with (Datatypes.S (length axes)).
    destruct (Nat.eqb_spec (ax_ls b) (e * ax_dim a)) as [E1|N1]; cbn [andb].
    + destruct (Nat.eqb_spec (ax_ld b) (e * ax_dim a)) as [E2|N2].
      * specialize (IH b axes _ eq_refl E1 E2). split.
        -- intros [H|H]; [lia|]. split; auto. split; auto. now apply IH.
        -- intros [_ [_ H]]. right. now apply IH.
      * split; [intros [H|[]]; lia|]. intros [_ [_ [_ [H _]]]]. contradiction.
    + split; [intros [H|[]]; lia|]. intros [_ [_ [H _]]]. contradiction.
Qed.

(** packaged statements *)
Definition in_bounds_and_distinct (dims ls ld d2s : list nat) (sb db ns nd : nat) : Prop :=
  (forall idx, index_below idx dims -> sb + dot idx ls < ns /\ db + dot (permuted 0 d2s idx) ld < nd) /\
  (forall i1 i2, index_below i1 dims -> index_below i2 dims ->
     dot (permuted 0 d2s i1) ld = dot (permuted 0 d2s i2) ld -> i1 = i2).

Lemma transpose_block : forall (R : Type) (RR : Scalar R) (rank : nat) (s2d d2s dims ls ld : list nat)
    (src dst : list R) (sb db : nat) (parity oob big : bool),
  inverse_plans rank s2d d2s -> length dims = rank -> length ls = rank -> length ld = rank ->
  in_bounds_and_distinct dims ls ld d2s sb db (length src) (length dst) ->
  exists dst', do_transpose oob big src sb dst db s2d d2s dims (permuted 0 d2s dims) ls ld rank (fold_right Nat.mul 1 dims) parity = Ok dst' /\
    length dst' = length dst /\
    (forall idx, index_below idx dims -> exists v, nth_error src (sb + dot idx ls) = Some v /\
        nth_error dst' (db + dot (permuted 0 d2s idx) ld) = Some (if parity then ropp v else v)) /\
    (forall j, (forall idx, index_below idx dims -> j <> db + dot (permuted 0 d2s idx) ld) -> nth_error dst' j = nth_error dst j).
Proof.
  intros R RR rank s2d d2s dims ls ld src dst sb db parity oob big HP H1 H2 H3 [HB HD].
  apply (do_transpose_ok rank s2d d2s dims (permuted 0 d2s dims) ls ld HP H1 H2 H3 eq_refl src dst sb db parity).
  - exact HB.
  - intros i1 i2 A B E. apply HD; auto. unfold dst_addr in E. lia.
Qed.

Lemma transpose_oob_irrelevant : forall (R : Type) (RR : Scalar R) (rank : nat) (s2d d2s dims ls ld : list nat)
    (src dst : list R) (sb db : nat) (parity oob oob' big : bool),
  inverse_plans rank s2d d2s -> length dims = rank -> length ls = rank -> length ld = rank ->
  in_bounds_and_distinct dims ls ld d2s sb db (length src) (length dst) ->
  do_transpose oob big src sb dst db s2d d2s dims (permuted 0 d2s dims) ls ld rank (fold_right Nat.mul 1 dims) parity =
  do_transpose oob' big src sb dst db s2d d2s dims (permuted 0 d2s dims) ls ld rank (fold_right Nat.mul 1 dims) parity.
Proof.
  intros R RR rank s2d d2s dims ls ld src dst sb db parity oob oob' big HP H1 H2 H3 [HB HD].
  apply (do_transpose_oob_irrelevant rank s2d d2s dims (permuted 0 d2s dims) ls ld HP H1 H2 H3 eq_refl src dst sb db parity).
  - exact HB.
  - intros i1 i2 A B E. apply HD; auto. unfold dst_addr in E. lia.
Qed.
