(** identity(). *)
From Coq Require Import String List Bool Arith Lia Sorted Permutation.
From Verif Require Import Base.Outcome Base.SMap Model.Symmetry Model.Edge Model.Core Model.EdgeOperator Model.Elementwise Model.Misc
  Spec.Blocks Spec.Strided Spec.Sign Spec.Relabel Spec.Values Spec.Pairing Proof.SymmetryFacts Proof.LoopFacts Proof.CoreFacts Proof.ConstructFacts Proof.ElemFacts
  Proof.TransposeFacts Proof.GroupFacts Proof.AddressFacts Proof.CopyLoopFacts Proof.TableFacts Proof.TransposeTensor Proof.SignFacts Proof.TransposeNames Proof.NamedOperator Proof.SplitMerged
  Proof.LegFacts Proof.ElementwiseFacts Proof.ScalarOpFacts Proof.WholeFacts.
Import ListNotations.

Definition flat (ps : list (nat * nat)) : list nat := concat (map (fun ab => [fst ab; snd ab]) ps).

(** ** pairing *)
Lemma flat_in : forall ps x, In x (flat ps) <-> exists a b, In (a, b) ps /\ (x = a \/ x = b).
Proof.
  intros ps x. unfold flat. rewrite in_concat. split.
  - intros [l [Hl Hx]]. apply in_map_iff in Hl as [[a b] [<- Hab]]. exists a, b. split; auto. destruct Hx as [Hx|[Hx|[]]]; auto.
  - intros [a [b [H1 H2]]]. exists [a; b]. split; [apply in_map_iff; exists (a, b); auto|]. destruct H2; subst; [now left|right; now left].
Qed.
Lemma partner_spec : forall pairs n, NoDup (flat pairs) -> In n (flat pairs) ->
  exists m, partner pairs n = Some m /\ m <> n /\ In m (flat pairs) /\ (In (n, m) pairs \/ In (m, n) pairs) /\ partner pairs m = Some n.
Proof.
  induction pairs as [|[a b] ps IH]; intros n Hn Hin; [destruct Hin|]. unfold flat in Hn, Hin. cbn [map concat fst snd app] in Hn, Hin.
  inversion Hn as [|? ? Ha Hn1]; subst. inversion Hn1 as [|? ? Hb Hn2]; subst. cbn [partner]. fold (flat ps) in *.
  assert (Hab : a <> b) by (intros ->; apply Ha; now left).
  destruct Hin as [<-|[<-|Hin]].
  - exists b. rewrite Nat.eqb_refl. split; auto. split; auto. split; [right; now left|]. split; [left; now left|].
    destruct (Nat.eqb_spec a b); [congruence|]. rewrite Nat.eqb_refl. reflexivity.
  - exists a. destruct (Nat.eqb_spec a b); [congruence|]. rewrite Nat.eqb_refl. split; auto. split; auto. split; [now left|]. split; [right; now left|]. now rewrite Nat.eqb_refl.
  - destruct (IH n Hn2 Hin) as [m [M1 [M2 [M3 [M4 M5]]]]]. exists m.
    destruct (Nat.eqb_spec a n) as [->|_]; [exfalso; apply Ha; now right|]. destruct (Nat.eqb_spec b n) as [->|_]; [contradiction|].
    destruct (Nat.eqb_spec a m) as [->|_]; [exfalso; apply Ha; now right|]. destruct (Nat.eqb_spec b m) as [->|_]; [contradiction|].
    split; auto. split; auto. split; [right; now right|]. split; [destruct M4; [left|right]; now right|auto].
Qed.

Lemma filter_perm_remove : forall l j (p : nat -> bool), NoDup l -> In j l -> p j = true ->
  Permutation (filter p l) (j :: filter (fun x => negb (Nat.eqb x j) && p x) l).
Proof.
  induction l as [|a l IH]; intros j p Hn Hj Hp; [destruct Hj|]. inversion Hn; subst. cbn [filter]. destruct Hj as [->|Hj].
  - rewrite Hp, Nat.eqb_refl. cbn [negb andb]. apply perm_skip. clear Hp. rewrite (filter_ext_in p (fun x => negb (Nat.eqb x j) && p x) l); [reflexivity|].
    intros x Hx. destruct (Nat.eqb_spec x j) as [->|_]; [contradiction|reflexivity].
  - destruct (Nat.eqb_spec a j) as [->|_]; [contradiction|]. cbn [negb andb]. destruct (p a).
    + rewrite (IH j p) by auto. apply perm_swap.
    + now apply IH.
Qed.

(** the scan that pairs up positions, for an involution without fixed points *)
Section Scan.
  Variables (pairs : list (nat * nat)) (names : list nat).
  Hypothesis (Hn : NoDup names) (Hp : pairs_up pairs names).
  Let Hnf : NoDup (flat pairs). Proof. eapply Permutation_NoDup; [symmetry; exact Hp|exact Hn]. Qed.
  (** positions of partners *)
  Definition mates (i j : nat) : Prop := exists n m, nth_error names i = Some n /\ nth_error names j = Some m /\ partner pairs n = Some m.
  Lemma mates_ex : forall i n, nth_error names i = Some n -> exists m j, partner pairs n = Some m /\ nth_error names j = Some m /\ mates i j /\ mates j i /\ i <> j /\
    (In (n, m) pairs \/ In (m, n) pairs).
  Proof.
    intros i n Hi. assert (Hin : In n (flat pairs)) by (eapply Permutation_in; [symmetry; exact Hp|now apply nth_error_In in Hi]).
    destruct (partner_spec pairs n Hnf Hin) as [m [M1 [M2 [M3 [M4 M5]]]]]. assert (Hm : In m names) by (eapply Permutation_in; [exact Hp|exact M3]).
    apply In_nth_error in Hm as [j Hj]. exists m, j. split; auto. split; auto. split; [exists n, m; auto|]. split; [exists m, n; auto|]. split; [|auto]. intros ->. congruence.
  Qed.
  Lemma mates_unique : forall i j k, mates i j -> mates i k -> j = k.
  Proof.
    intros i j k [n [m [A [B C]]]] [n' [m' [A' [B' C']]]]. rewrite A in A'. injection A' as <-. rewrite C in C'. injection C' as <-.
    apply (proj1 (NoDup_nth_error names) Hn); [apply nth_error_Some; congruence|congruence].
  Qed.
  Lemma mates_sym : forall i j, mates i j -> mates j i.
  Proof. intros i j [n [m [A [B C]]]]. destruct (mates_ex i n A) as [m' [j' [X1 [X2 [X3 [X4 _]]]]]]. rewrite (mates_unique i j j'); auto. exists n, m. auto. Qed.

  Lemma ordered_ok : forall rest i invalid, skipn i names = rest ->
    (forall k, i <= k -> k < length names -> (In k invalid <-> exists j, mates k j /\ j < i)) ->
    exists L, ordered_pairs_from pairs (construct_name_to_index names) i rest invalid = Ok L /\
      Permutation (flat L) (filter (fun k => negb (existsb (Nat.eqb k) invalid)) (seq i (length rest))) /\
      forall a b, In (a, b) L -> mates a b.
  Proof.
    induction rest as [|n rest IH]; intros i invalid Hr Hinv; cbn [ordered_pairs_from].
    - exists []. split; [reflexivity|]. split; [constructor|intros ? ? []].
    - assert (Hi : nth_error names i = Some n). { rewrite <- (firstn_skipn i names), Hr. assert (HL : length (firstn i names) = i).
        { apply firstn_length_le. assert (length (skipn i names) > 0) by (rewrite Hr; cbn; lia). rewrite skipn_length in H. lia. }
        rewrite nth_error_app2, HL, Nat.sub_diag by lia. reflexivity. }
      assert (Hr' : skipn (Datatypes.S i) names = rest).
      { clear - Hr. revert i Hr. induction names as [|a l IH]; intros [|i] Hr; cbn in *; try discriminate; [congruence|]. apply (IH i Hr). }
      assert (Hil : i < length names) by (apply nth_error_Some; congruence).
      destruct (mates_ex i n Hi) as [m [j [M1 [M2 [M3 [M4 [M5 _]]]]]]].
      assert (Hjl : j < length names) by (apply nth_error_Some; congruence).
      destruct (existsb (Nat.eqb i) invalid) eqn:Ei.
      + apply existsb_exists in Ei as [x [Hx Ex]]. apply Nat.eqb_eq in Ex. subst x.
        destruct (IH (Datatypes.S i) invalid Hr') as [L [L1 [L2 L3]]].
        { intros k Hk Hkl. rewrite Hinv by lia. split; intros [j' [J1 J2]]; exists j'; split; auto. apply (Hinv i) in Hx as [j'' [J3 J4]]; [|lia|lia].
          destruct (Nat.eq_dec j' i) as [->|]; [|lia]. pose proof (mates_unique i k j'' (mates_sym _ _ J1) J3). lia. }
        exists L. split; [exact L1|]. split; auto. cbn [length seq filter]. replace (existsb (Nat.eqb i) invalid) with true; [exact L2|].
        symmetry. apply existsb_exists. exists i. split; auto. apply Nat.eqb_refl.
      + assert (Hni : ~ In i invalid). { intro X. rewrite <- not_true_iff_false in Ei. apply Ei. apply existsb_exists. exists i. split; auto. apply Nat.eqb_refl. }
        assert (Hij : i < j). { destruct (Nat.lt_ge_cases j i); [|lia]. exfalso. apply Hni. apply Hinv; [lia|lia|]. exists j. auto. }
        rewrite M1. cbn [get_or_ub bind]. rewrite (proj2 (name_index names m j Hn) M2). cbn [at_or_throw bind].
        destruct (IH (Datatypes.S i) (j :: invalid) Hr') as [L [L1 [L2 L3]]].
        { intros k Hk Hkl. split.
          - intros [<-|Hin]; [exists i; split; [auto|lia]|]. apply Hinv in Hin as [j' [J1 J2]]; [|lia|lia]. exists j'. split; auto.
          - intros [j' [J1 J2]]. destruct (Nat.eq_dec j' i) as [->|]; [left; symmetry; apply (mates_unique i); auto; now apply mates_sym|]. right. apply Hinv; [lia|lia|]. exists j'. split; auto. lia. }
        change (1 + i) with (Datatypes.S i). rewrite L1. cbn [bind]. exists ((i, j) :: L). split; [reflexivity|]. split.
        * unfold flat. cbn [map concat fst snd app]. fold (flat L). cbn [length seq filter]. rewrite Ei. cbn [negb]. apply perm_skip. rewrite L2.
          symmetry. rewrite (filter_perm_remove _ j); [|apply seq_NoDup| |].
          -- apply perm_skip. apply Permutation_refl'. apply filter_ext. intro k. cbn [existsb]. rewrite negb_orb. reflexivity.
          -- apply in_seq. assert (HL : length (skipn (Datatypes.S i) names) = length rest) by (now rewrite Hr'). rewrite skipn_length in HL. lia.
          -- apply negb_true_iff. apply not_true_iff_false. intro X. apply existsb_exists in X as [x [X1 X2]]. apply Nat.eqb_eq in X2. subst x.
             apply Hinv in X1 as [j' [J1 J2]]; [|lia|lia]. pose proof (mates_unique j i j' M4 J1). lia.
        * intros a b [Hab|Hab]; [injection Hab as <- <-; exact M3|auto].
  Qed.
  Lemma ordered_pairs_ok : exists L, ordered_pairs_from pairs (construct_name_to_index names) 0 names [] = Ok L /\
    Permutation (flat L) (seq 0 (length names)) /\ (forall a b, In (a, b) L -> mates a b) /\ length L = Nat.div2 (length names).
  Proof.
    destruct (ordered_ok names 0 []) as [L [L1 [L2 L3]]]; [reflexivity|intros k _ _; split; [intros []|intros [j [_ H]]; lia]|].
    exists L. split; auto. assert (L2' : Permutation (flat L) (seq 0 (length names))).
    { rewrite L2. apply Permutation_refl'. assert (F : forall l, filter (fun k => negb (existsb (Nat.eqb k) [])) l = l).
      { clear. induction l as [|a l IH]; [reflexivity|]. cbn [filter existsb negb]. f_equal. exact IH. }
      apply F. }
    split; auto. split; auto. apply Permutation_length in L2'. rewrite seq_length in L2'. rewrite <- L2'. clear. induction L as [|[a b] L IH]; [reflexivity|].
    unfold flat in *. cbn [map concat app length fst snd]. cbn [Nat.div2]. now rewrite <- IH.
  Qed.
End Scan.

(** ** the odometer *)
Fixpoint digits_value (dims idx : list nat) : nat :=
  match dims, idx with d :: ds, i :: is => i + d * digits_value ds is | _, _ => 0 end.
Lemma digits_lt : forall dims idx, Forall2 lt idx dims -> digits_value dims idx < prod dims.
Proof.
  intros dims idx H. induction H as [|i d is ds Hlt H IH]; [cbn; lia|]. cbn [digits_value]. unfold prod. cbn [fold_right]. fold (prod ds). nia.
Qed.
Lemma digits_inj : forall dims i1 i2, Forall2 lt i1 dims -> Forall2 lt i2 dims -> digits_value dims i1 = digits_value dims i2 -> i1 = i2.
Proof.
  induction dims as [|d ds IH]; intros i1 i2 H1 H2 E; inversion H1; inversion H2; subst; [reflexivity|]. cbn [digits_value] in E.
  assert (x = x0 /\ digits_value ds l = digits_value ds l0) as [-> E2].
  { assert (Hm : (x + d * digits_value ds l) mod d = (x0 + d * digits_value ds l0) mod d) by congruence. rewrite !(Nat.mul_comm d), !Nat.mod_add, !Nat.mod_small in Hm by lia. nia. }
  f_equal. now apply IH.
Qed.
Lemma identity_step_spec : forall dims leads idx base, Forall2 lt idx dims -> length leads = length dims ->
  match identity_step dims leads idx (base + dot idx leads) with
  | Some (idx', p') => Forall2 lt idx' dims /\ p' = base + dot idx' leads /\ digits_value dims idx' = 1 + digits_value dims idx
  | None => 1 + digits_value dims idx = prod dims
  end.
Proof.
  induction dims as [|d ds IH]; intros leads idx base H HL; inversion H as [|i ? is ? Hlt H']; subst.
  - destruct leads; [|discriminate]. cbn. reflexivity.
  - destruct leads as [|l ls]; [discriminate|]. cbn [identity_step dot digits_value]. destruct (Nat.eqb_spec (1 + i) d) as [Ed|Ed].
    + replace (base + (i * l + dot is ls) + l - d * l) with (base + dot is ls) by nia. cbn in HL.
      specialize (IH ls is base H' ltac:(lia)). destruct (identity_step ds ls is (base + dot is ls)) as [[is' p']|].
      * destruct IH as [I1 [I2 I3]]. split; [constructor; [lia|auto]|]. split; [cbn [dot]; lia|]. cbn [digits_value]. nia.
      * unfold prod. cbn [fold_right]. fold (prod ds). nia.
    + split; [constructor; [lia|auto]|]. split; [cbn [dot]; lia|]. cbn [digits_value]. lia.
Qed.

Section Identity.
  Context {S R : Type} {SS : Sym S} {SL : SymLaws S} {RR : Scalar R}.
  Notation entry := (S * nat)%type.
  Notation tlegs t := (combine (t_names t) (t_edges t)).

  Lemma identity_loop_ok : forall dims leads, length leads = length dims ->
    forall fuel idx (b : list R), Forall2 lt idx dims -> (forall i, Forall2 lt i dims -> dot i leads < length b) -> prod dims - digits_value dims idx <= fuel ->
    exists b', identity_loop fuel dims leads idx (dot idx leads) b = Ok b' /\ length b' = length b /\
      (forall i, Forall2 lt i dims -> digits_value dims idx <= digits_value dims i -> nth_error b' (dot i leads) = Some rone) /\
      (forall j, (forall i, Forall2 lt i dims -> dot i leads <> j) -> nth_error b' j = nth_error b j) /\
      (forall j, nth_error b j = Some rone -> nth_error b' j = Some rone).
  Proof.
    intros dims leads HL. induction fuel as [|fuel IH]; intros idx b Hi Hb Hf; [pose proof (digits_lt _ _ Hi); lia|]. cbn [identity_loop].
    destruct (update_some b (dot idx leads) rone (Hb idx Hi)) as [b1 E1]. rewrite E1. cbn [get_or_ub bind].
    assert (L1 : length b1 = length b) by (now apply update_length in E1).
    assert (Hk1 : forall j, nth_error b j = Some rone -> nth_error b1 j = Some rone).
    { intros j Hj. destruct (Nat.eq_dec j (dot idx leads)) as [->|Hne]; [now apply update_same in E1|]. now rewrite (update_other _ _ _ _ _ E1 Hne). }
    pose proof (identity_step_spec dims leads idx 0 Hi HL) as Hst. cbn [Nat.add] in Hst. destruct (identity_step dims leads idx (dot idx leads)) as [[idx' p']|].
    - destruct Hst as [S1 [-> S3]]. destruct (IH idx' b1 S1) as [b' [B1 [B2 [B3 [B4 B5]]]]]; [now rewrite L1|lia|]. exists b'. split; [exact B1|]. split; [lia|]. split; [|split].
      + intros i Hi' Hle. destruct (Nat.eq_dec (digits_value dims i) (digits_value dims idx)) as [Eq|Hne].
        * rewrite (digits_inj dims i idx Hi' Hi Eq). apply B5. now apply update_same in E1.
        * apply B3; auto. lia.
      + intros j Hj. rewrite (B4 j Hj). apply (update_other _ _ _ _ _ E1). intros ->. now apply (Hj idx Hi).
      + intros j Hj. auto.
    - exists b1. split; [reflexivity|]. split; [exact L1|]. split; [|split].
      + intros i Hi' Hle. pose proof (digits_lt _ _ Hi'). assert (Eq : digits_value dims i = digits_value dims idx) by lia. rewrite (digits_inj dims i idx Hi' Hi Eq). now apply update_same in E1.
      + intros j Hj. apply (update_other _ _ _ _ _ E1). intros ->. now apply (Hj idx Hi).
      + exact Hk1.
  Qed.
  Lemma Forall2_rev : forall A B (P : A -> B -> Prop) l1 l2, Forall2 P l1 l2 -> Forall2 P (rev l1) (rev l2).
  Proof. intros A B P l1 l2 H. induction H; [constructor|]. cbn. apply Forall2_app; auto. Qed.
  Lemma dot_rev : forall a b, length a = length b -> dot (rev a) (rev b) = dot a b.
  Proof.
    induction a as [|x a IH]; intros [|y b] H; try discriminate; [reflexivity|]. cbn [rev]. rewrite dot_app by (rewrite !rev_length; cbn in H; lia). cbn [dot]. cbn in H. rewrite IH by lia. lia.
  Qed.
  Lemma prod_pos : forall dims, Forall (fun d => 0 < d) dims -> 0 < prod dims.
  Proof. induction 1; unfold prod; cbn [fold_right]; [lia|]. fold (prod l). unfold prod in *. nia. Qed.
  Lemma prod_rev : forall dims, prod (rev dims) = prod dims.
  Proof.
    induction dims as [|d ds IH]; [reflexivity|]. cbn [rev]. unfold prod in *. rewrite fold_right_app. cbn [fold_right]. rewrite <- IH.
    generalize (rev ds). clear. induction l as [|x l IH]; cbn; [lia|]. rewrite IH. lia.
  Qed.
  Lemma zeros_lt : forall l, Forall (fun d => 0 < d) l -> Forall2 lt (repeat 0 (length l)) l.
  Proof. induction 1; cbn; constructor; auto. Qed.
  Lemma zeros_dot : forall k l, dot (repeat 0 k) l = 0.
  Proof. induction k as [|k IH]; intros [|x l]; cbn; auto. Qed.
  Lemma set_to_identity_ok : forall (b : list R) dims leads, dims <> [] -> Forall (fun d => 0 < d) dims -> length leads = length dims -> prod dims <= length b ->
    (forall i, Forall2 lt i dims -> dot i leads < length b) ->
    exists b', set_to_identity b dims leads = Ok b' /\ length b' = length b /\
      (forall i, Forall2 lt i dims -> nth_error b' (dot i leads) = Some rone) /\
      (forall j, (forall i, Forall2 lt i dims -> dot i leads <> j) -> nth_error b' j = nth_error b j).
  Proof.
    intros b dims leads Hne Hp HL Hle Hb. unfold set_to_identity. destruct dims as [|d0 ds0] eqn:Ed; [congruence|]. rewrite <- Ed in *. clear Ed Hne.
    assert (H0 : Forall2 lt (repeat 0 (length dims)) (rev dims)).
    { rewrite <- (rev_length dims). apply zeros_lt. now apply Forall_rev. }
    assert (D0 : dot (repeat 0 (length dims)) (rev leads) = 0).
    { apply zeros_dot. }
    destruct (identity_loop_ok (rev dims) (rev leads) ltac:(now rewrite !rev_length) (1 + length b) (repeat 0 (length dims)) b H0) as [b' [B1 [B2 [B3 [B4 _]]]]].
    - intros i Hi. apply Forall2_rev in Hi. rewrite rev_involutive in Hi. rewrite <- (rev_involutive i), dot_rev; [now apply Hb|]. apply Forall2_len in Hi. congruence.
    - rewrite prod_rev. lia.
    - rewrite D0 in B1. exists b'. split; [exact B1|]. split; auto. split.
      + intros i Hi. assert (Hi' := Forall2_rev _ _ _ _ _ Hi). rewrite <- (dot_rev i) by (apply Forall2_len in Hi; congruence). apply B3; auto.
        assert (Z : digits_value (rev dims) (repeat 0 (length dims)) = 0). { clear. rewrite <- (rev_length dims). induction (rev dims); cbn; auto. rewrite IHl. lia. } lia.
      + intros j Hj. apply B4. intros i Hi. apply Forall2_rev in Hi. rewrite rev_involutive in Hi. rewrite <- (rev_involutive i), dot_rev; [now apply Hj|]. apply Forall2_len in Hi. congruence.
  Qed.

  Lemma Forall2_In_r : forall A B (P : A -> B -> Prop) l1 l2 b, Forall2 P l1 l2 -> In b l2 -> exists a, In a l1 /\ P a b.
  Proof.
    intros A B P l1 l2 b H. induction H as [|x y l1 l2 Hxy H IH]; intro Hb; [destruct Hb|]. destruct Hb as [<-|Hb]; [exists x; split; [now left|auto]|].
    destruct (IH Hb) as [a [H1 H2]]. exists a. split; [now right|auto].
  Qed.
  (** ** one block *)
  Lemma flat_sum : forall (f : nat -> nat) L, list_sum (map f (flat L)) = list_sum (map (fun ab => f (fst ab) + f (snd ab)) L).
  Proof. intros f L. induction L as [|[a b] L IH]; [reflexivity|]. unfold flat in *. cbn [map concat app fst snd]. unfold list_sum in *. cbn [fold_right]. rewrite IH. cbn [fst snd]. lia. Qed.
  Lemma list_sum_perm : forall l1 l2, Permutation l1 l2 -> list_sum l1 = list_sum l2.
  Proof. intros l1 l2 H. induction H; unfold list_sum in *; cbn [fold_right]; lia. Qed.
  Lemma prod_perm : forall l1 l2, Permutation l1 l2 -> prod l1 = prod l2.
  Proof. intros l1 l2 H. induction H; unfold prod in *; cbn [fold_right]; nia. Qed.
  Lemma flat_prod : forall (f : nat -> nat) L, prod (map f (flat L)) = prod (map (fun ab => f (fst ab) * f (snd ab)) L).
  Proof. intros f L. induction L as [|[a b] L IH]; [reflexivity|]. unfold flat in *. cbn [map concat app fst snd]. unfold prod in *. cbn [fold_right]. rewrite IH. cbn [fst snd]. lia. Qed.
  Lemma prod_le : forall l1 l2, Forall2 le l1 l2 -> prod l1 <= prod l2.
  Proof. intros l1 l2 H. induction H; unfold prod in *; cbn [fold_right]; nia. Qed.
  Lemma prod_nth : forall ds, prod (map (fun i => nth i ds 0) (seq 0 (length ds))) = prod ds.
  Proof. induction ds as [|d ds IH]; [reflexivity|]. cbn [length seq map]. rewrite <- seq_shift, map_map. unfold prod in *. cbn [fold_right nth]. now rewrite IH. Qed.
  (** offset of the coordinate whose paired indices agree *)
  Lemma paired_offset : forall ds L full, Permutation (flat L) (seq 0 (length ds)) -> length full = length ds ->
    (forall a b, In (a, b) L -> nth a full 0 = nth b full 0) ->
    row_major ds full = dot (map (fun ab => nth (fst ab) full 0) L) (map (fun ab => nth (fst ab) (leadings ds) 0 + nth (snd ab) (leadings ds) 0) L).
  Proof.
    intros ds L full HP HL Heq. rewrite row_major_dot by auto. assert (HLl : length (leadings ds) = length ds) by (rewrite leadings_sub; apply sub_leadings_length).
    rewrite (dot_sum (length ds)) by auto. rewrite <- (list_sum_perm _ _ (Permutation_map (fun i => nth i full 0 * nth i (leadings ds) 0) HP)). rewrite flat_sum. clear HP HL HLl.
    induction L as [|[a b] L IH]; [reflexivity|]. cbn [map dot fst snd]. unfold list_sum in *. cbn [fold_right]. rewrite IH by (intros; apply Heq; now right).
    rewrite <- (Heq a b) by (now left). lia.
  Qed.
  Lemma nth_ext0 : forall (l1 l2 : list nat), length l1 = length l2 -> (forall i, i < length l1 -> nth i l1 0 = nth i l2 0) -> l1 = l2.
  Proof. intros l1 l2 HL H. apply (nth_ext l1 l2 0 0); auto. Qed.
  (** from indices of pairs to indices of all axes *)
  Lemma spread : forall L n (idx : list nat), NoDup (flat L) -> (forall x, In x (flat L) -> x < n) -> length idx = length L ->
    exists full, length full = n /\ map (fun ab => nth (fst ab) full 0) L = idx /\ map (fun ab => nth (snd ab) full 0) L = idx.
  Proof.
    induction L as [|[a b] L IH]; intros n idx Hnd Hlt HL.
    - destruct idx; [|discriminate]. exists (repeat 0 n). split; [apply repeat_length|auto].
    - destruct idx as [|i idx]; [discriminate|]. unfold flat in Hnd, Hlt. cbn [map concat app fst snd] in Hnd, Hlt. fold (flat L) in *. inversion Hnd as [|? ? Ha Hnd1]; subst. inversion Hnd1 as [|? ? Hb Hnd2]; subst.
      destruct (IH n idx Hnd2) as [full [F1 [F2 F3]]]; [intros; apply Hlt; right; now right|cbn in HL; lia|].
      assert (G : exists f1, length f1 = n /\ nth a f1 0 = i /\ nth b f1 0 = i /\ forall k, k <> a -> k <> b -> nth k f1 0 = nth k full 0).
      { exists (map (fun k => if Nat.eqb k a || Nat.eqb k b then i else nth k full 0) (seq 0 n)). rewrite map_length, seq_length. split; auto.
        assert (N : forall k, k < n -> nth k (map (fun k => if Nat.eqb k a || Nat.eqb k b then i else nth k full 0) (seq 0 n)) 0 = if Nat.eqb k a || Nat.eqb k b then i else nth k full 0).
        { intros k Hk. rewrite (nth_indep _ 0 ((fun k => if Nat.eqb k a || Nat.eqb k b then i else nth k full 0) 0)) by (rewrite map_length, seq_length; auto).
          rewrite (map_nth (fun k => if Nat.eqb k a || Nat.eqb k b then i else nth k full 0)). now rewrite seq_nth. }
        split; [rewrite N by (apply Hlt; now left); now rewrite Nat.eqb_refl|]. split; [rewrite N by (apply Hlt; right; now left); now rewrite Nat.eqb_refl, orb_true_r|].
        intros k Ka Kb. destruct (Nat.lt_ge_cases k n) as [Hk|Hk].
        - rewrite N by auto. apply Nat.eqb_neq in Ka, Kb. now rewrite Ka, Kb.
        - rewrite !nth_overflow; auto; try lia. rewrite map_length, seq_length. lia. }
      destruct G as [f1 [G1 [G2 [G3 G4]]]]. exists f1. split; auto. cbn [map fst snd]. rewrite G2, G3.
      assert (Hab : forall x y, In (x, y) L -> x <> a /\ x <> b /\ y <> a /\ y <> b).
      { intros x y Hxy. assert (Hx : In x (flat L)) by (apply flat_in; eauto). assert (Hy : In y (flat L)) by (apply flat_in; eauto).
        repeat split; intros ->; try (apply Ha; now right); try (now apply Hb). }
      split; f_equal.
      + rewrite <- F2. apply map_ext_in. intros [x y] Hxy. cbn [fst]. destruct (Hab x y Hxy) as [X1 [X2 _]]. now apply G4.
      + rewrite <- F3. apply map_ext_in. intros [x y] Hxy. cbn [snd]. destruct (Hab x y Hxy) as [_ [_ [X3 X4]]]. now apply G4.
  Qed.

  Lemma nth_of_error : forall (l : list nat) i, i < length l -> nth_error l i = Some (nth i l 0).
  Proof. intros. now apply nth_error_nth'. Qed.
  Lemma mapM_dims : forall (es : list (edge S)) key ds, dims_of (maps_of es) key = Some ds ->
    mapM (fun ek => at_or_throw (mfind (snd ek) (emap (fst ek)))) (combine es key) = Ok ds.
  Proof.
    induction es as [|e es IH]; intros [|s key] ds H; cbn in H; try discriminate; [now injection H as <-|]. cbn [combine mapM fst snd].
    destruct (mfind s (emap e)); [|discriminate]. fold (maps_of es) in H. destruct (dims_of (maps_of es) key) as [ds'|] eqn:E; [|discriminate]. injection H as <-. cbn [at_or_throw bind]. now rewrite (IH _ _ E).
  Qed.
  Lemma mapM_nth_seq : forall A B (f : A -> res B) (g : A -> B) (l : list A), (forall a, In a l -> f a = Ok (g a)) ->
    mapM (fun i => bind (get_or_ub (nth_error l i)) f) (seq 0 (length l)) = Ok (map g l).
  Proof.
    intros A B f g l H. assert (G : forall l2 l1, (forall a, In a l2 -> f a = Ok (g a)) -> mapM (fun j => bind (get_or_ub (nth_error (l1 ++ l2) j)) f) (seq (length l1) (length l2)) = Ok (map g l2)).
    { induction l2 as [|a l2 IH]; intros l1 H2; [reflexivity|]. cbn [length seq mapM map]. rewrite nth_error_app2, Nat.sub_diag by lia. cbn [nth_error get_or_ub bind]. rewrite H2 by (now left). cbn [bind].
      specialize (IH (l1 ++ [a])). rewrite <- app_assoc in IH. cbn [app] in IH. rewrite app_length in IH. cbn [length] in IH. rewrite Nat.add_1_r in IH. rewrite IH; [reflexivity|]. intros; apply H2; now right. }
    apply (G l []). exact H.
  Qed.

  (** the tensor has the same dimension, at least one, on the two legs of each pair, in every block *)
  Definition pair_dims (t : tensor S R) (pairs : list (nat * nat)) : Prop :=
    forall key b a1 a2 e1 e2 s1 s2 i1 i2 d1 d2, In (key, b) (t_blocks t) -> In (a1, a2) pairs ->
      nth_error (t_names t) i1 = Some a1 -> nth_error (t_names t) i2 = Some a2 -> nth_error (t_edges t) i1 = Some e1 -> nth_error (t_edges t) i2 = Some e2 ->
      nth_error key i1 = Some s1 -> nth_error key i2 = Some s2 -> mfind s1 (emap e1) = Some d1 -> mfind s2 (emap e2) = Some d2 -> d1 = d2 /\ 0 < d1.

  Lemma block_identity : forall (t : tensor S R) pairs L, wf_tensor t -> pairs_up pairs (t_names t) -> t_names t <> [] -> pair_dims t pairs ->
    Permutation (flat L) (seq 0 (length (t_names t))) -> (forall a b, In (a, b) L -> mates pairs (t_names t) a b) -> length L = Nat.div2 (length (t_names t)) ->
    forall key b, In (key, b) (t_blocks t) -> forall z : list R, length z = length b -> Forall (fun x => x = rzero) z ->
    exists b', bind (mapM (fun ek => at_or_throw (mfind (snd ek) (emap (fst ek)))) (combine (t_edges t) key)) (fun dims =>
            let leads := leadings dims in
            bind (mapM (fun i =>
                    bind (get_or_ub (nth_error L i)) (fun ij =>
                    bind (get_or_ub (nth_error dims (fst ij))) (fun d =>
                    bind (get_or_ub (nth_error leads (fst ij))) (fun l1 =>
                    bind (get_or_ub (nth_error leads (snd ij))) (fun l2 => Ok (d, l1 + l2)))))) (seq 0 (Nat.div2 (length (t_names t))))) (fun pl =>
            bind (set_to_identity z (map fst pl) (map snd pl)) (fun b => Ok (key, b)))) = Ok (key, b') /\ length b' = length b /\
      forall ds full, dims_of (maps_of (t_edges t)) key = Some ds -> Forall2 lt full ds ->
        nth_error b' (row_major ds full) = Some (if forallb (fun ab => Nat.eqb (nth (fst ab) full 0) (nth (snd ab) full 0)) L then rone else rzero).
  Proof.
    intros t pairs L W HP Hne Hpd HL1 HL2 HL3 key b Hin z Hz Hzero.
    assert (Hb : mfind key (c_blocks (t_core t)) = Some b) by (apply In_mfind; auto; apply wf_blocks_sorted; apply W).
    destruct (wf_find_block _ _ _ (wf_tcore _ W) Hb) as [Hz0 [ds [Hds Hlb]]]. fold (t_edges t) in Hds.
    assert (Hlen : length ds = length (t_names t)). { apply dims_of_length in Hds. rewrite (wf_rank _ W). unfold maps_of in Hds. rewrite map_length in Hds. tauto. }
    assert (Hlk : length key = length (t_names t)).
    { pose proof (dims_of_mem _ _ _ Hds) as Hm. apply Forall2_len in Hm. unfold maps_of in Hm. rewrite map_length in Hm. rewrite (wf_rank _ W). congruence. }
    assert (HLl : length (leadings ds) = length ds) by (rewrite leadings_sub; apply sub_leadings_length).
    assert (Hflat : forall a c, In (a, c) L -> a < length ds /\ c < length ds).
    { assert (G : forall x, In x (flat L) -> x < length (t_names t)) by (intros x Hx; apply (Permutation_in _ HL1), in_seq in Hx; lia).
      intros a c Hac. rewrite Hlen. split; apply G, flat_in; exists a, c; auto. }
    rewrite (mapM_dims _ _ _ Hds). cbn [bind]. cbv zeta. rewrite <- HL3.
    rewrite (mapM_nth_seq _ _ _ (fun ab => (nth (fst ab) ds 0, nth (fst ab) (leadings ds) 0 + nth (snd ab) (leadings ds) 0))).
    2:{ intros [a c] Hac. cbn [fst snd]. destruct (Hflat a c Hac) as [A C]. rewrite (nth_of_error ds a A). cbn [get_or_ub bind].
        rewrite (nth_of_error (leadings ds) a), (nth_of_error (leadings ds) c) by lia. reflexivity. }
    cbn [bind]. rewrite !map_map. cbn [fst snd].
    set (pd := map (fun ab : nat * nat => nth (fst ab) ds 0) L). set (pl := map (fun ab : nat * nat => nth (fst ab) (leadings ds) 0 + nth (snd ab) (leadings ds) 0) L).
    assert (Hdeq : forall a c, In (a, c) L -> nth a ds 0 = nth c ds 0 /\ 0 < nth a ds 0).
    { intros a c Hac. destruct (HL2 a c Hac) as [n [m [N1 [N2 N3]]]].
      assert (Hd : forall i, i < length ds -> exists e s, nth_error (t_edges t) i = Some e /\ nth_error key i = Some s /\ mfind s (emap e) = Some (nth i ds 0)).
      { intros i Hi. rewrite Hlen in Hi. destruct (nth_error (t_edges t) i) as [e|] eqn:Ee; [|apply nth_error_None in Ee; rewrite <- (wf_rank _ W) in Ee; lia].
        destruct (nth_error key i) as [s|] eqn:Es; [|apply nth_error_None in Es; lia]. exists e, s. split; auto. split; auto.
        clear - Hds Ee Es. revert key ds i Hds Ee Es. unfold maps_of. induction (t_edges t) as [|e0 es IH]; intros [|s0 key] ds i Hds Ee Es; destruct i; try discriminate; cbn in *.
        - injection Ee as ->. injection Es as ->. destruct (mfind s (emap e)); [|discriminate]. destruct (dims_of (map emap es) key); [|discriminate]. injection Hds as <-. reflexivity.
        - destruct (mfind s0 (emap e0)); [|discriminate]. destruct (dims_of (map emap es) key) as [ds'|] eqn:E; [|discriminate]. injection Hds as <-. cbn. eapply IH; eauto. }
      destruct (Hflat a c Hac) as [A C]. destruct (Hd a A) as [ea [sa [A1 [A2 A3]]]]. destruct (Hd c C) as [ec [sc [C1 [C2 C3]]]].
      destruct (mates_ex pairs (t_names t) (wf_nodup _ W) HP a n N1) as [m' [j' [X1 [X2 [X3 [X4 [X5 X6]]]]]]]. rewrite N3 in X1. injection X1 as <-.
      destruct X6 as [X6|X6].
      - apply (Hpd key b n m ea ec sa sc a c); auto.
      - destruct (Hpd key b m n ec ea sc sa c a (nth c ds 0) (nth a ds 0)) as [Y1 Y2]; auto. rewrite <- Y1. split; [reflexivity|exact Y2]. }
    assert (Hnd : NoDup (flat L)) by (eapply Permutation_NoDup; [symmetry; exact HL1|apply seq_NoDup]).
    assert (Hcover : forall x, x < length ds -> exists a c, In (a, c) L /\ (x = a \/ x = c)).
    { intros x Hx. apply flat_in. eapply Permutation_in; [symmetry; exact HL1|]. apply in_seq. lia. }
    (* indices of pairs <-> indices of axes that agree *)
    assert (Hto : forall i, Forall2 lt i pd -> exists full, Forall2 lt full ds /\ dot i pl = row_major ds full /\ (forall a c, In (a, c) L -> nth a full 0 = nth c full 0)).
    { intros i Hi. destruct (spread L (length ds) i Hnd) as [full [F1 [F2 F3]]].
      { intros x Hx. apply flat_in in Hx as [a [c [Hac [-> | ->]]]]; apply (Hflat a c Hac). }
      { apply Forall2_len in Hi. unfold pd in Hi. rewrite map_length in Hi. exact Hi. }
      assert (Heq : forall a c, In (a, c) L -> nth a full 0 = nth c full 0).
      { intros a c Hac. apply In_nth_error in Hac as [k Hk]. assert (E1 : nth_error i k = Some (nth a full 0)) by (rewrite <- F2, nth_error_map, Hk; reflexivity).
        assert (E2 : nth_error i k = Some (nth c full 0)) by (rewrite <- F3, nth_error_map, Hk; reflexivity). congruence. }
      assert (Hlt : forall a c, In (a, c) L -> nth a full 0 < nth a ds 0).
      { intros a c Hac. apply In_nth_error in Hac as [k Hk]. apply (Forall2_nth_error _ _ _ _ _ Hi k); [rewrite <- F2, nth_error_map, Hk; reflexivity|unfold pd; rewrite nth_error_map, Hk; reflexivity]. }
      exists full. split; [|split; [|exact Heq]].
      - assert (Hall : forall x, x < length ds -> nth x full 0 < nth x ds 0).
        { intros x Hx. destruct (Hcover x Hx) as [a [c [Hac [-> | ->]]]]; [now apply (Hlt a c)|]. rewrite <- (Heq a c Hac), <- (proj1 (Hdeq a c Hac)). now apply (Hlt a c). }
        clear - Hall F1. revert ds Hall F1. induction full as [|x full IH]; intros [|d ds] Hall F1; try discriminate; constructor; [apply (Hall 0); cbn; lia|]. apply IH; [|cbn in F1; lia]. intros y Hy. apply (Hall (Datatypes.S y)). cbn. lia.
      - rewrite (paired_offset ds L full); auto; [|now rewrite Hlen]. rewrite F2. reflexivity. }
    assert (Hpdpos : Forall (fun d => 0 < d) pd).
    { unfold pd. apply Forall_map. apply Forall_forall. intros [a c] Hac. cbn [fst]. now apply (Hdeq a c). }
    destruct (set_to_identity_ok z pd pl) as [b' [B1 [B2 [B3 B4]]]].
    - unfold pd. destruct L as [|x L']; [|discriminate]. cbn in HL3. apply Permutation_length in HL1. cbn in HL1. rewrite seq_length in HL1. destruct (t_names t); [congruence|discriminate].
    - exact Hpdpos.
    - unfold pd, pl. now rewrite !map_length.
    - rewrite Hz, Hlb. rewrite <- (prod_nth ds), Hlen, <- (prod_perm _ _ (Permutation_map (fun i => nth i ds 0) HL1)).
      rewrite flat_prod. apply prod_le. unfold pd. clear - Hdeq. induction L as [|[a c] L IH]; constructor; [|apply IH; intros; apply Hdeq; now right].
      cbn [fst snd]. destruct (Hdeq a c (or_introl eq_refl)). nia.
    - intros i Hi. destruct (Hto i Hi) as [full [F1 [F2 _]]]. rewrite F2, Hz, Hlb. now apply row_major_lt.
    - rewrite B1. cbn [bind]. exists b'. split; [reflexivity|]. split; [lia|]. intros ds' full Hds' Hf. rewrite Hds in Hds'. injection Hds' as <-.
      assert (HLf : length full = length ds) by (now apply Forall2_len in Hf).
      destruct (forallb (fun ab => Nat.eqb (nth (fst ab) full 0) (nth (snd ab) full 0)) L) eqn:Ef.
      + rewrite forallb_forall in Ef. rewrite (paired_offset ds L full); auto; [|now rewrite Hlen|intros a c Hac; specialize (Ef _ Hac); now apply Nat.eqb_eq].
        apply B3. unfold pd. rewrite <- (map_id L) at 1 2. rewrite !map_map. clear - Hf Hflat. assert (Hlt : forall x, x < length ds -> nth x full 0 < nth x ds 0).
        { clear - Hf. induction Hf as [|x0 d0 xs ds0 H0 Hf IH]; intros k Hk; cbn in Hk; [lia|]. destruct k; cbn; [auto|apply IH; lia]. }
        induction L as [|[a c] L IH]; constructor; [apply Hlt; now apply (Hflat a c (or_introl eq_refl))|]. apply IH. intros; apply Hflat; now right.
      + rewrite B4.
        * assert (Hlt : row_major ds full < length z) by (rewrite Hz, Hlb; now apply row_major_lt). destruct (nth_error z (row_major ds full)) as [x|] eqn:Ex; [|apply nth_error_None in Ex; lia].
          apply nth_error_In in Ex. rewrite Forall_forall in Hzero. f_equal. now apply Hzero.
        * intros i Hi E. destruct (Hto i Hi) as [f2 [F1 [F2 F3]]]. assert (full = f2) by (apply (row_major_inj ds); auto; congruence). subst f2.
          rewrite <- not_true_iff_false in Ef. apply Ef. apply forallb_forall. intros [a c] Hac. apply Nat.eqb_eq. cbn. now apply F3.
  Qed.

  Lemma equal_pairs : forall (t : tensor S R) pairs L pos (pt : list entry), wf_tensor t -> pairs_up pairs (t_names t) -> assigns pos (t_names t) pt ->
    Permutation (flat L) (seq 0 (length (t_names t))) -> (forall a b, In (a, b) L -> mates pairs (t_names t) a b) ->
    forallb (fun ab => Nat.eqb (nth (fst ab) (map snd pt) 0) (nth (snd ab) (map snd pt) 0)) L = equal_indices pos pairs.
  Proof.
    intros t pairs L pos pt W HP Ha HL1 HL2. pose proof (wf_nodup _ W) as Hn.
    assert (Hc : forall i n, nth_error (t_names t) i = Some n -> nth i (map snd pt) 0 = snd (coord pos n)).
    { intros i n Hi. assert (Hx : nth_error (map (fun n => mfind n pos) (t_names t)) i = Some (mfind n pos)) by (rewrite nth_error_map, Hi; reflexivity).
      unfold assigns in Ha. rewrite Ha, nth_error_map in Hx. destruct (nth_error pt i) as [x|] eqn:Ex; [|discriminate]. injection Hx as Hx. unfold coord. rewrite <- Hx.
      apply nth_error_nth. rewrite nth_error_map, Ex. reflexivity. }
    apply eq_true_iff_eq. unfold equal_indices. rewrite !forallb_forall. split; intros H [a b] Hab; apply Nat.eqb_eq; cbn [fst snd].
    - assert (Ina : In a (t_names t)) by (eapply Permutation_in; [exact HP|apply flat_in; exists a, b; auto]). apply In_nth_error in Ina as [i Hi].
      assert (Hnf : NoDup (flat pairs)) by (eapply Permutation_NoDup; [symmetry; exact HP|exact Hn]).
      assert (Hpa : partner pairs a = Some b).
      { clear - Hnf Hab. induction pairs as [|[x y] ps IH]; [destruct Hab|]. unfold flat in Hnf. cbn [map concat app fst snd] in Hnf. fold (flat ps) in Hnf. inversion Hnf as [|? ? X1 X2]; subst. inversion X2 as [|? ? Y1 Y2]; subst. cbn [partner].
        destruct Hab as [E|Hab]; [injection E as -> ->; now rewrite Nat.eqb_refl|]. assert (In a (flat ps)) by (apply flat_in; eauto).
        destruct (Nat.eqb_spec x a) as [->|_]; [exfalso; apply X1; now right|]. destruct (Nat.eqb_spec y a) as [->|_]; [contradiction|]. now apply IH. }
      destruct (mates_ex pairs (t_names t) Hn HP i a Hi) as [b' [j [M1 [M2 [M3 [M4 _]]]]]]. rewrite Hpa in M1. injection M1 as <-.
      assert (Hif : In i (flat L)). { eapply Permutation_in; [symmetry; exact HL1|]. apply in_seq. split; [lia|]. cbn. apply nth_error_Some. congruence. }
      apply flat_in in Hif as [x [y [Hxy [-> | ->]]]].
      + specialize (HL2 _ _ Hxy). rewrite (mates_unique pairs (t_names t) Hn x j y M3 HL2) in *. specialize (H _ Hxy). apply Nat.eqb_eq in H. cbn [fst snd] in H. now rewrite <- (Hc x a Hi), <- (Hc y b M2).
      + specialize (HL2 _ _ Hxy). apply (mates_sym pairs (t_names t) Hn HP) in HL2. rewrite (mates_unique pairs (t_names t) Hn y j x M3 HL2) in *. specialize (H _ Hxy). apply Nat.eqb_eq in H. cbn [fst snd] in H. now rewrite <- (Hc y a Hi), <- (Hc x b M2).
    - destruct (HL2 a b Hab) as [n [m [N1 [N2 N3]]]]. destruct (mates_ex pairs (t_names t) Hn HP a n N1) as [m' [j [M1 [_ [_ [_ [_ [M6|M6]]]]]]]]; rewrite N3 in M1; injection M1 as <-;
        specialize (H _ M6); apply Nat.eqb_eq in H; cbn [fst snd] in H; rewrite (Hc a n N1), (Hc b m N2); congruence.
  Qed.

  Theorem identity_at : forall (E : @env R) (t : tensor S R) pairs, wf_tensor t -> pairs_up pairs (t_names t) -> t_names t <> [] -> pair_dims t pairs ->
    exists r, identity E t pairs = Ok r /\ wf_tensor r /\ t_names r = t_names t /\ t_edges r = t_edges t /\
      forall pos pt, assigns pos (t_names t) pt -> valid_pt (t_core t) pt -> const_at r pos = Ok (if equal_indices pos pairs then rone else rzero).
  Proof.
    intros E t pairs W HP Hne Hpd. unfold identity. destruct (ordered_pairs_ok pairs (t_names t) (wf_nodup _ W) HP) as [L [L1 [L2 [L3 L4]]]]. rewrite L1. cbn [bind].
    destruct (same_shape_ok (env_junk E) t W) as [r0 [E0 [W0 [N0 [D0 S0]]]]]. rewrite E0. cbn [bind]. cbv zeta.
    assert (Hsh : shape (t_blocks (zero_tensor r0)) = shape (t_blocks t)).
    { rewrite <- (shape_junk (env_junk E) (shape (t_blocks t))), <- S0. unfold zero_tensor, transform, shape, t_blocks. cbn. rewrite map_map. apply map_ext. intros [k b]. cbn. now rewrite map_length. }
    destruct (mapM_ex _ _ (fun kb : list S * list R =>
            bind (mapM (fun ek => at_or_throw (mfind (snd ek) (emap (fst ek)))) (combine (t_edges t) (fst kb))) (fun dims =>
            let leads := leadings dims in
            bind (mapM (fun i =>
                    bind (get_or_ub (nth_error L i)) (fun ij =>
                    bind (get_or_ub (nth_error dims (fst ij))) (fun d =>
                    bind (get_or_ub (nth_error leads (fst ij))) (fun l1 =>
                    bind (get_or_ub (nth_error leads (snd ij))) (fun l2 => Ok (d, l1 + l2)))))) (seq 0 (Nat.div2 (length (t_names t))))) (fun pl =>
            bind (set_to_identity (snd kb) (map fst pl) (map snd pl)) (fun b => Ok (fst kb, b)))))
        (fun (kb kb' : list S * list R) => fst kb' = fst kb /\ length (snd kb') = length (snd kb) /\ forall ds full, dims_of (maps_of (t_edges t)) (fst kb) = Some ds -> Forall2 lt full ds ->
           nth_error (snd kb') (row_major ds full) = Some (if forallb (fun ab => Nat.eqb (nth (fst ab) full 0) (nth (snd ab) full 0)) L then rone else rzero))
        (t_blocks (zero_tensor r0))) as [bs [B1 B2]].
    { intros [key z] Hin. cbn [fst snd]. assert (Hs : In (key, length z) (shape (t_blocks t))) by (rewrite <- Hsh; now apply shape_In).
      unfold shape in Hs. apply in_map_iff in Hs as [[key' b] [Eb Hb]]. injection Eb as -> Hl. cbn [snd] in Hl.
      destruct (block_identity t pairs L W HP Hne Hpd L2 L3 L4 key b Hb z) as [b' [X1 [X2 X3]]]; [now rewrite Hl| |].
      - unfold zero_tensor, transform, t_blocks in Hin. cbn in Hin. apply in_map_iff in Hin as [[k0 b0] [E1 _]]. injection E1 as _ <-. apply Forall_forall. intros x Hx. apply in_map_iff in Hx as [y [<- _]]. reflexivity.
      - exists (key, b'). split; [exact X1|]. cbn [fst snd]. split; auto. split; [congruence|exact X3]. }
    cbv zeta in B1. rewrite B1. cbn [bind].
    assert (Hshape : shape bs = shape (t_blocks t)).
    { rewrite <- Hsh. clear - B2. induction B2 as [|x y l l' [H1 [H2 _]] B2 IH]; [reflexivity|]. unfold shape in *. cbn [map]. rewrite IH, H1, H2. reflexivity. }
    assert (Nr : t_names (zero_tensor r0) = t_names t) by exact N0. assert (Er : t_edges (zero_tensor r0) = t_edges t) by exact D0. rewrite Nr, Er.
    pose proof (reshape_wf t bs W Hshape) as Wr. eexists. split; [reflexivity|]. split; [exact Wr|]. split; [reflexivity|]. split; [reflexivity|].
    intros pos pt Ha Hv. destruct (elem_block _ pt Wr Hv) as [ds [b' [v [H1 [H2 [H3 [H4 [H5 [H6 H7]]]]]]]]]. rewrite (H7 pos Ha). f_equal.
    change (t_edges (mkTensor (t_names t) (mkCore (t_edges t) bs))) with (t_edges t) in H1. change (t_blocks (mkTensor (t_names t) (mkCore (t_edges t) bs))) with bs in H3.
    apply mfind_In in H3. destruct (Forall2_In_r _ _ _ _ _ _ B2 H3) as [[key z] [_ [Y1 [Y2 Y3]]]]. cbn [fst snd] in *. subst key.
    rewrite (Y3 ds (map snd pt) H1 H2) in H6. injection H6 as <-. rewrite (equal_pairs t pairs L pos pt); auto.
  Qed.

  (** plain tensors *)
  Theorem identity_plain : (forall s : S, s = szero) -> forall (E : @env R) (t : tensor S R) pairs, wf_tensor t -> pairs_up pairs (t_names t) -> t_names t <> [] ->
    (forall a b ea eb, In (a, b) pairs -> In (a, ea) (tlegs t) -> In (b, eb) (tlegs t) -> emap ea = emap eb /\ forall s d, In (s, d) (emap ea) -> 0 < d) ->
    exists r, identity E t pairs = Ok r /\ wf_tensor r /\ t_names r = t_names t /\ t_edges r = t_edges t /\
      forall pos pt, assigns pos (t_names t) pt -> valid_pt (t_core t) pt -> const_at r pos = Ok (if equal_indices pos pairs then rone else rzero).
  Proof.
    intros Hu E t pairs W HP Hne H. apply identity_at; auto. intros key b a1 a2 e1 e2 s1 s2 i1 i2 d1 d2 Hb Hp N1 N2 E1 E2 K1 K2 M1 M2.
    destruct (H a1 a2 e1 e2 Hp) as [H1 H2]; [eapply nth_error_In, combine_nth_some; eauto|eapply nth_error_In, combine_nth_some; eauto|].
    rewrite (Hu s1) in M1. rewrite (Hu s2), <- H1 in M2. split; [congruence|]. eapply H2. apply mfind_In. exact M1.
  Qed.
  (** symmetric tensors in which every block has opposite charges on every pair, for instance all matrices *)
  Theorem identity_opposite : forall (E : @env R) (t : tensor S R) pairs, wf_tensor t -> pairs_up pairs (t_names t) -> t_names t <> [] ->
    (forall a b ea eb s d, In (a, b) pairs -> In (a, ea) (tlegs t) -> In (b, eb) (tlegs t) -> (In (s, d) (emap ea) -> 0 < d) /\ (In (s, d) (emap ea) <-> In (sneg s, d) (emap eb))) ->
    (forall pos pt, assigns pos (t_names t) pt -> valid_pt (t_core t) pt -> opposite_charges pos pairs = true) ->
    exists r, identity E t pairs = Ok r /\ wf_tensor r /\ t_names r = t_names t /\ t_edges r = t_edges t /\
      forall pos pt, assigns pos (t_names t) pt -> valid_pt (t_core t) pt -> const_at r pos = Ok (if opposite_charges pos pairs && equal_indices pos pairs then rone else rzero).
  Proof.
    intros E t pairs W HP Hne H Hop. destruct (identity_at E t pairs W HP Hne) as [r [R1 [R2 [R3 [R4 R5]]]]].
    - assert (Hpos : forall n e s d, In (n, e) (tlegs t) -> In (s, d) (emap e) -> 0 < d).
      { intros n e s d Hl Hs. assert (Hin : In n (flat pairs)) by (eapply Permutation_in; [symmetry; exact HP|now apply in_combine_l in Hl]).
        apply flat_in in Hin as [a [b [Hab Hn]]].
        assert (La : exists ea, In (a, ea) (tlegs t)) by (apply leg_of_name; [exact W|]; eapply Permutation_in; [exact HP|apply flat_in; eauto]).
        assert (Lb : exists eb, In (b, eb) (tlegs t)) by (apply leg_of_name; [exact W|]; eapply Permutation_in; [exact HP|apply flat_in; eauto]).
        destruct La as [ea La], Lb as [eb Lb]. destruct Hn as [-> | ->].
        - now apply (H a b e eb s d).
        - destruct (H a b ea e (sneg s) d Hab La Hl) as [X1 X2]. apply X1, X2. now rewrite sneg_invol. }
      intros key b a1 a2 e1 e2 s1 s2 i1 i2 d1 d2 Hb Hp N1 N2 E1 E2 K1 K2 M1 M2.
      assert (L1 : In (a1, e1) (tlegs t)) by (eapply nth_error_In, combine_nth_some; eauto). assert (L2 : In (a2, e2) (tlegs t)) by (eapply nth_error_In, combine_nth_some; eauto).
      assert (Hbf : mfind key (c_blocks (t_core t)) = Some b) by (apply In_mfind; auto; apply wf_blocks_sorted; apply W).
      destruct (wf_find_block _ _ _ (wf_tcore _ W) Hbf) as [Hz0 [ds [Hds Hlb]]]. set (pt := map (fun s => (s, 0)) key : list entry).
      assert (F : map fst pt = key) by (unfold pt; rewrite map_map; apply map_id). assert (Hlk : length key = length (t_names t)).
      { apply dims_of_length in Hds as [_ Hk]. rewrite (wf_rank _ W). unfold maps_of in Hk. rewrite map_length in Hk. exact Hk. }
      assert (Ha : assigns (combine (t_names t) pt) (t_names t) pt) by (apply assigns_combine; [apply W|unfold pt; now rewrite map_length]).
      assert (Hv : valid_pt (t_core t) pt).
      { split; [|now rewrite F]. assert (Hr : Forall2 (fun ne s => exists d, In (s, d) (emap (snd ne))) (tlegs t) key).
        { clear - SL Hds W. fold (t_edges t) in Hds. pose proof (wf_rank _ W) as HL. revert key ds Hds HL. unfold maps_of. generalize (t_edges t), (t_names t). induction l as [|e es IH]; intros [|n ns] [|s key] ds Hds HL; cbn in *; try discriminate; constructor.
          - destruct (mfind s (emap e)) eqn:Em; [|discriminate]. apply mfind_In in Em. eauto.
          - destruct (mfind s (emap e)) eqn:Em; [|discriminate]. destruct (dims_of (map emap es) key) eqn:Ed; [|discriminate]. eapply IH; eauto. }
        unfold pt. fold (t_edges t). unfold maps_of. assert (Hcs : map snd (tlegs t) = t_edges t) by (apply combine_map_snd; apply W).
        rewrite <- Hcs at 1. rewrite map_map.
        assert (Hpos' : forall ne s d, In ne (tlegs t) -> In (s, d) (emap (snd ne)) -> 0 < d) by (intros [n e] s d; apply Hpos).
        clear - Hr Hpos'. induction Hr as [|ne s l key [d Hd] Hr IH]; cbn [map]; [constructor|]. econstructor; [exact Hd|eapply Hpos'; [now left|exact Hd]|]. apply IH. intros ne' s' d' Hin. apply Hpos'. now right. }
      specialize (Hop _ _ Ha Hv). unfold opposite_charges in Hop. rewrite forallb_forall in Hop. specialize (Hop _ Hp). cbn [fst snd] in Hop.
      assert (Hc : forall i n s, nth_error (t_names t) i = Some n -> nth_error key i = Some s -> fst (coord (combine (t_names t) pt) n) = s).
      { intros i n s X1 X2. unfold coord. rewrite (assigns_nth _ _ _ i n (s, 0) Ha X1); [reflexivity|]. unfold pt. rewrite nth_error_map, X2. reflexivity. }
      rewrite (Hc i1 a1 s1 N1 K1), (Hc i2 a2 s2 N2 K2) in Hop. apply eqb_eq in Hop. subst s1.
      apply mfind_In in M1. apply mfind_In in M2. destruct (H a1 a2 e1 e2 (sneg s2) d1 Hp L1 L2) as [X1 X2]. apply X2 in M1. split; [|apply X1, X2, M1]. rewrite sneg_invol in M1.
      pose proof (leg_sorted t a2 e2 W L2) as Hs. apply In_mfind in M1; auto. apply In_mfind in M2; auto. congruence.
    - exists r. split; [exact R1|]. split; [exact R2|]. split; [exact R3|]. split; [exact R4|]. intros pos pt Ha Hv. rewrite (Hop pos pt Ha Hv). now apply (R5 pos pt).
  Qed.

  Lemma matrix_opposite : forall (t : tensor S R) a b, t_names t = [a; b] ->
    forall pos pt, assigns pos (t_names t) pt -> valid_pt (t_core t) pt -> opposite_charges pos [(a, b)] = true.
  Proof.
    intros t a b Hn pos pt Ha [_ Hv]. rewrite (assigns_coord _ _ _ Ha), Hn in Hv. cbn [map] in Hv. unfold opposite_charges. cbn [forallb fst snd]. rewrite andb_true_r.
    apply (proj2 (eqb_true _ _)). unfold ssum in Hv. cbn [fold_left] in Hv. rewrite sadd_0_l in Hv.
    apply (sadd_cancel_l (fst (coord pos b))). rewrite sadd_neg_r, sadd_comm. exact Hv.
  Qed.
End Identity.
