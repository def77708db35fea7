(** Parity functions of symmetry.hpp against pair counting. *)
From Coq Require Import List Bool Arith Lia ZArith Permutation.
From Verif Require Import Base.SMap Model.Symmetry Model.EdgeOperator Spec.Sign Spec.Strided Proof.SymmetryFacts Proof.GroupFacts.
Import ListNotations.

(** parity of the number of elements satisfying f *)
Definition par {A : Type} (f : A -> bool) (l : list A) : bool := fold_right (fun x b => xorb (f x) b) false l.
Lemma par_filter : forall A (f : A -> bool) l, par f l = Nat.odd (length (filter f l)).
Proof.
  induction l as [|x l IH]; [reflexivity|]. simpl. rewrite IH. destruct (f x).
  - change (length (x :: filter f l)) with (Datatypes.S (length (filter f l))).
    rewrite Nat.odd_succ, <- Nat.negb_odd. now destruct (Nat.odd _).
  - now destruct (Nat.odd _).
Qed.
Lemma par_app : forall A (f : A -> bool) l1 l2, par f (l1 ++ l2) = xorb (par f l1) (par f l2).
Proof. induction l1 as [|x l IH]; intro l2; simpl; [now destruct (par f l2)|]. rewrite IH. now rewrite xorb_assoc. Qed.
Lemma par_map : forall A B (g : A -> B) (f : B -> bool) l, par f (map g l) = par (fun x => f (g x)) l.
Proof. induction l; simpl; auto. now rewrite IHl. Qed.
Lemma par_ext : forall A (f g : A -> bool) l, (forall x, In x l -> f x = g x) -> par f l = par g l.
Proof. induction l; simpl; intro H; auto. rewrite IHl by auto. now rewrite H by auto. Qed.
Lemma par_xorb : forall A (f g : A -> bool) l, par (fun x => xorb (f x) (g x)) l = xorb (par f l) (par g l).
Proof.
  induction l; simpl; auto. rewrite IHl. destruct (f a), (g a), (par f l), (par g l); reflexivity.
Qed.
Lemma par_false : forall A (f : A -> bool) l, (forall x, In x l -> f x = false) -> par f l = false.
Proof. induction l; simpl; intro H; auto. rewrite H by auto. rewrite IHl by auto. reflexivity. Qed.
Lemma par_perm : forall A (f : A -> bool) l1 l2, Permutation l1 l2 -> par f l1 = par f l2.
Proof.
  induction 1; simpl; auto.
  - now rewrite IHPermutation.
  - destruct (f y), (f x), (par f l); reflexivity.
  - congruence.
Qed.

(** ** ordered pairs *)
Lemma in_ordered_pairs : forall A (l : list A) a b,
  In (a, b) (ordered_pairs l) <-> exists i j, i < j /\ nth_error l i = Some a /\ nth_error l j = Some b.
Proof.
  induction l as [|x l IH]; intros a b; simpl.
  - split; [contradiction|]. intros [i [j [_ [H _]]]]. destruct i; discriminate.
  - rewrite in_app_iff, in_map_iff, IH. split.
    + intros [[y [E Hy]]|[i [j [L [H1 H2]]]]].
      * injection E as -> ->. apply In_nth_error in Hy as [j Hj]. exists 0, (S j). split; [lia|]. auto.
      * exists (S i), (S j). split; [lia|]. auto.
    + intros [[|i] [[|j] [L [H1 H2]]]]; try lia; simpl in *.
      * left. injection H1 as ->. exists b. split; auto. eapply nth_error_In; eauto.
      * right. exists i, j. split; [lia|]. auto.
Qed.
Lemma comes_before_iff : forall l a b, comes_before l a b = true <-> exists i j, i < j /\ nth_error l i = Some a /\ nth_error l j = Some b.
Proof.
  intros l a b. unfold comes_before. rewrite existsb_exists. rewrite <- in_ordered_pairs. split.
  - intros [[x y] [H E]]. apply andb_prop in E as [E1 E2]. apply Nat.eqb_eq in E1, E2. simpl in *. now subst.
  - intro H. exists (a, b). split; auto. simpl. now rewrite !Nat.eqb_refl.
Qed.
Lemma NoDup_nth_eq : forall A (l : list A) i j x, NoDup l -> nth_error l i = Some x -> nth_error l j = Some x -> i = j.
Proof.
  intros A l i j x H H1 H2. apply (proj1 (NoDup_nth_error l) H).
  - apply nth_error_Some. congruence.
  - congruence.
Qed.
Lemma comes_before_flip : forall l a b, NoDup l -> In a l -> In b l -> a <> b ->
  comes_before l b a = negb (comes_before l a b).
Proof.
  intros l a b Hn Ha Hb Hab. apply In_nth_error in Ha as [i Hi]. apply In_nth_error in Hb as [j Hj].
  destruct (comes_before l a b) eqn:E; destruct (comes_before l b a) eqn:E2; simpl; auto; exfalso.
  - apply comes_before_iff in E as [i1 [j1 [L [A1 A2]]]]. apply comes_before_iff in E2 as [i2 [j2 [L2 [B1 B2]]]].
    assert (i1 = j2) by (eapply NoDup_nth_eq; eauto). assert (j1 = i2) by (eapply NoDup_nth_eq; eauto). lia.
  - assert (K : i < j \/ j < i) by (destruct (Nat.lt_trichotomy i j) as [|[|]]; auto; congruence).
    destruct K.
    + assert (comes_before l a b = true) by (apply comes_before_iff; eauto). congruence.
    + assert (comes_before l b a = true) by (apply comes_before_iff; eauto). congruence.
Qed.
Lemma ordered_pairs_distinct : forall A (l : list A) a b, NoDup l -> In (a, b) (ordered_pairs l) -> a <> b /\ In a l /\ In b l.
Proof.
  intros A l a b Hn H. apply in_ordered_pairs in H as [i [j [L [H1 H2]]]]. split.
  - intros ->. assert (i = j) by (eapply NoDup_nth_eq; eauto). lia.
  - split; eapply nth_error_In; eauto.
Qed.
Lemma ordered_pairs_map : forall A B (f : A -> B) l, ordered_pairs (map f l) = map (fun p => (f (fst p), f (snd p))) (ordered_pairs l).
Proof. induction l as [|x l IH]; [reflexivity|]. simpl. rewrite map_app, IH, !map_map. reflexivity. Qed.
(** a symmetric pair function has the same total over any order of the elements *)
Lemma par_pairs_perm : forall A (f : A * A -> bool) l1 l2, (forall x y, f (x, y) = f (y, x)) -> Permutation l1 l2 ->
  par f (ordered_pairs l1) = par f (ordered_pairs l2).
Proof.
  intros A f l1 l2 Hs. induction 1; simpl; auto.
  - rewrite !par_app, !par_map, IHPermutation. f_equal. now apply par_perm.
  - rewrite !par_app. simpl. rewrite !par_map. rewrite (Hs x y).
    destruct (f (y, x)), (par (fun z => f (y, z)) l), (par (fun z => f (x, z)) l), (par f (ordered_pairs l)); reflexivity.
  - congruence.
Qed.

(** ** composition of exchanges *)
Lemma exchanged_par : forall odd source target,
  Nat.odd (exchanged_odd odd source target) =
  par (fun p => odd (fst p) && odd (snd p) && comes_before target (snd p) (fst p)) (ordered_pairs source).
Proof. intros. unfold exchanged_odd. now rewrite par_filter. Qed.
Lemma exchanged_sym : forall odd source target, NoDup source -> Permutation source target ->
  Nat.odd (exchanged_odd odd source target) =
  par (fun p => odd (fst p) && odd (snd p) &&
        xorb (comes_before source (fst p) (snd p)) (comes_before target (fst p) (snd p))) (ordered_pairs source).
Proof.
  intros odd source target Hn Hp. rewrite exchanged_par. apply par_ext. intros [a b] H. cbn [fst snd].
  pose proof (ordered_pairs_distinct _ _ _ _ Hn H) as [Hab [Ha Hb]].
  assert (E : comes_before source a b = true) by (apply comes_before_iff, in_ordered_pairs; auto). rewrite E.
  rewrite (comes_before_flip target a b); auto.
  - eapply Permutation_NoDup; eauto.
  - eapply Permutation_in; eauto.
  - eapply Permutation_in; eauto.
Qed.
Lemma exchanged_compose : forall odd l1 l2 l3, NoDup l1 -> Permutation l1 l2 -> Permutation l2 l3 ->
  Nat.odd (exchanged_odd odd l1 l3) = xorb (Nat.odd (exchanged_odd odd l1 l2)) (Nat.odd (exchanged_odd odd l2 l3)).
Proof.
  intros odd l1 l2 l3 Hn H12 H23.
  assert (Hn2 : NoDup l2) by (eapply Permutation_NoDup; eauto).
  assert (Hn3 : NoDup l3) by (eapply Permutation_NoDup; eauto).
  rewrite (exchanged_sym odd l1 l3), (exchanged_sym odd l1 l2), (exchanged_sym odd l2 l3); auto.
  2: { eapply Permutation_trans; eauto. }
  set (memb := fun x => existsb (Nat.eqb x) l1).
  assert (Hm : forall x, memb x = true <-> In x l1).
  { intro x. unfold memb. rewrite existsb_exists. split.
    - intros [y [Hy E]]. apply Nat.eqb_eq in E. now subst.
    - intro H. exists x. split; auto. apply Nat.eqb_refl. }
  set (f23 := fun p : nat * nat => memb (fst p) && memb (snd p) && negb (Nat.eqb (fst p) (snd p)) &&
    (odd (fst p) && odd (snd p) && xorb (comes_before l2 (fst p) (snd p)) (comes_before l3 (fst p) (snd p)))).
  assert (E23 : par (fun p => odd (fst p) && odd (snd p) && xorb (comes_before l2 (fst p) (snd p)) (comes_before l3 (fst p) (snd p))) (ordered_pairs l2)
    = par f23 (ordered_pairs l2)).
  { apply par_ext. intros [a b] H. apply ordered_pairs_distinct in H as [Hab [Ha Hb]]; auto. unfold f23. cbn [fst snd].
    replace (memb a) with true by (symmetry; apply Hm; eapply Permutation_in; [apply Permutation_sym; eauto|auto]).
    replace (memb b) with true by (symmetry; apply Hm; eapply Permutation_in; [apply Permutation_sym; eauto|auto]).
    replace (Nat.eqb a b) with false by (symmetry; now apply Nat.eqb_neq). reflexivity. }
  rewrite E23. rewrite (par_pairs_perm _ f23 l2 l1).
  - rewrite <- par_xorb. apply par_ext. intros [a b] H. apply ordered_pairs_distinct in H as [Hab [Ha Hb]]; auto. unfold f23. cbn [fst snd].
    replace (memb a) with true by (symmetry; now apply Hm). replace (memb b) with true by (symmetry; now apply Hm).
    replace (Nat.eqb a b) with false by (symmetry; now apply Nat.eqb_neq). simpl.
    destruct (odd a), (odd b), (comes_before l1 a b), (comes_before l2 a b), (comes_before l3 a b); reflexivity.
  - intros x y. unfold f23. cbn [fst snd]. rewrite (Nat.eqb_sym y x). destruct (memb x) eqn:Ex; destruct (memb y) eqn:Ey; auto.
    destruct (Nat.eqb x y) eqn:Exy; auto. apply Nat.eqb_neq in Exy. apply Hm in Ex. apply Hm in Ey.
    rewrite (comes_before_flip l2 x y), (comes_before_flip l3 x y); auto.
    + simpl. destruct (odd x), (odd y), (comes_before l2 x y), (comes_before l3 x y); reflexivity.
    + eapply Permutation_in; [|exact Ex]. eapply Permutation_trans; eauto.
    + eapply Permutation_in; [|exact Ey]. eapply Permutation_trans; eauto.
    + eapply Permutation_in; eauto.
    + eapply Permutation_in; eauto.
  - now apply Permutation_sym.
Qed.
Lemma exchanged_self : forall odd l, NoDup l -> exchanged_odd odd l l = 0.
Proof.
  intros odd l Hn. unfold exchanged_odd. assert (G : forall ps, incl ps (ordered_pairs l) ->
    filter (fun p => odd (fst p) && odd (snd p) && comes_before l (snd p) (fst p)) ps = []).
  { induction ps as [|[a b] ps IH]; intro H; [reflexivity|]. cbn [filter fst snd].
    assert (Hin : In (a, b) (ordered_pairs l)) by (apply H; now left).
    pose proof (ordered_pairs_distinct _ _ _ _ Hn Hin) as [Hab [Ha Hb]].
    rewrite (comes_before_flip l a b) by auto.
    replace (comes_before l a b) with true by (symmetry; apply comes_before_iff, in_ordered_pairs; auto).
    rewrite andb_false_r. apply IH. intros x Hx. apply H. now right. }
  rewrite G; [reflexivity|apply incl_refl].
Qed.

Lemma list_seq : forall A (l : list A) f n, length l = n -> (forall i, i < n -> nth_error l i = Some (f i)) -> l = map f (seq 0 n).
Proof.
  intros A l f n <-. revert f. induction l as [|x l IH]; intros f H; [reflexivity|]. simpl.
  pose proof (H 0 (Nat.lt_0_succ _)) as H0. simpl in H0. injection H0 as <-. f_equal.
  rewrite <- seq_shift, map_map. apply IH. intros i Hi. apply (H (S i)). simpl. lia.
Qed.

(** ** the model's parity functions *)
Section Parity.
  Context {S : Type} {SS : Sym S}.
  Lemma transpose_parity_inner_par : forall (ss : list S) ps si pi, length ss = length ps ->
    transpose_parity_inner si pi ss ps = par (fun sp => sodd si && sodd (fst sp) && Nat.ltb (snd sp) pi) (combine ss ps).
  Proof.
    induction ss as [|s ss IH]; intros [|p ps] si pi H; simpl in *; try discriminate; auto.
    rewrite IH by lia. f_equal. destruct (Nat.ltb p pi); [now rewrite andb_true_r|now rewrite andb_false_r].
  Qed.
  Lemma get_transpose_parity_par : forall (ss : list S) ps, length ss = length ps ->
    get_transpose_parity ss ps =
    par (fun p => sodd (fst (fst p)) && sodd (fst (snd p)) && Nat.ltb (snd (snd p)) (snd (fst p))) (ordered_pairs (combine ss ps)).
  Proof.
    induction ss as [|s ss IH]; intros [|p ps] H; simpl in *; try discriminate; auto.
    rewrite par_app, par_map, IH by lia. f_equal. apply transpose_parity_inner_par. lia.
  Qed.

  (** the sign of a transposition in terms of names *)
  Lemma transpose_parity_names : forall (names : list nat) d2s (ss : list S) (odd : nat -> bool),
    NoDup names -> length ss = length names -> inverse_plans (length names) (invert_plan d2s) d2s ->
    (forall i n s, nth_error names i = Some n -> nth_error ss i = Some s -> odd n = sodd s) ->
    get_transpose_parity ss (invert_plan d2s) = Nat.odd (exchanged_odd odd names (permuted 0 d2s names)).
  Proof.
    intros names d2s ss odd Hn HL Hp Ho. pose proof Hp as [L1 [L2 [P1 P2]]].
    rewrite get_transpose_parity_par by lia. rewrite exchanged_par.
    assert (Hc : combine ss (invert_plan d2s) = map (fun i => (nth i ss szero, nth i (invert_plan d2s) 0)) (seq 0 (length names))).
    { apply list_seq; [rewrite combine_length; lia|]. intros i Hi.
      rewrite (nth_error_nth' _ (szero, 0)) by (rewrite combine_length; lia). now rewrite combine_nth by lia. }
    assert (Hm : names = map (fun i => nth i names 0) (seq 0 (length names))).
    { apply list_seq; auto. intros i Hi. now apply nth_error_nth'. }
    rewrite Hc. replace (ordered_pairs names) with (ordered_pairs (map (fun i => nth i names 0) (seq 0 (length names)))) by (now rewrite <- Hm). rewrite !ordered_pairs_map, !par_map. apply par_ext. intros [i j] H. cbn [fst snd].
    apply in_ordered_pairs in H as [x [y [Lxy [Ex Ey]]]].
    assert (Bx : x < length names). { assert (x < length (seq 0 (length names))) by (apply nth_error_Some; congruence). now rewrite seq_length in *. }
    assert (By : y < length names). { assert (y < length (seq 0 (length names))) by (apply nth_error_Some; congruence). now rewrite seq_length in *. }
    assert (i = x). { apply nth_error_nth with (d := 0) in Ex. rewrite seq_nth in Ex by lia. lia. }
    assert (j = y). { apply nth_error_nth with (d := 0) in Ey. rewrite seq_nth in Ey by lia. lia. }
    subst i j. clear Ex Ey.
    assert (Ex : nth_error names x = Some (nth x names 0)) by now apply nth_error_nth'.
    assert (Ey : nth_error names y = Some (nth y names 0)) by now apply nth_error_nth'.
    assert (Fx : nth_error ss x = Some (nth x ss szero)) by (apply nth_error_nth'; lia).
    assert (Fy : nth_error ss y = Some (nth y ss szero)) by (apply nth_error_nth'; lia).
    rewrite (Ho x _ _ Ex Fx), (Ho y _ _ Ey Fy).
    f_equal. set (sx := nth x (invert_plan d2s) 0). set (sy := nth y (invert_plan d2s) 0).
    destruct (P1 x Bx) as [X1 X2]. destruct (P1 y By) as [Y1 Y2]. fold sx in X1, X2. fold sy in Y1, Y2.
    assert (Hpn : forall k, k < length names -> nth_error (permuted 0 d2s names) k = Some (nth (nth k d2s 0) names 0)).
    { intros k Hk. unfold permuted. erewrite map_nth_error; [reflexivity|]. apply nth_error_nth'. lia. }
    assert (Hpd : NoDup (permuted 0 d2s names)).
    { eapply Permutation_NoDup; [|exact Hn]. apply Permutation_sym. eapply permuted_Permutation; eauto. }
    assert (Qx : nth_error (permuted 0 d2s names) sx = Some (nth x names 0)) by (rewrite Hpn, X2; auto).
    assert (Qy : nth_error (permuted 0 d2s names) sy = Some (nth y names 0)) by (rewrite Hpn, Y2; auto).
    destruct (Nat.ltb_spec sy sx) as [Hlt|Hge]; symmetry.
    - apply comes_before_iff. exists sy, sx. auto.
    - destruct (comes_before (permuted 0 d2s names) (nth y names 0) (nth x names 0)) eqn:E; auto. exfalso.
      apply comes_before_iff in E as [i [j [Lij [E1 E2]]]].
      assert (i = sy) by (eapply NoDup_nth_eq; eauto). assert (j = sx) by (eapply NoDup_nth_eq; eauto). lia.
  Qed.

  (** ** groups *)
  Lemma group_sums : forall (g : list S) a b,
    (fold_left (fun acc s => acc + sfermi s) g a = a + fold_right (fun s acc => sfermi s + acc) 0 g)%Z /\
    (fold_left (fun acc s => acc + sfermi s * sfermi s) g b = b + fold_right (fun s acc => sfermi s * sfermi s + acc) 0 g)%Z.
  Proof.
    induction g as [|s g IH]; intros a b; simpl; [lia|]. destruct (IH (a + sfermi s)%Z (b + sfermi s * sfermi s)%Z) as [-> ->]. lia.
  Qed.
  Fixpoint cross (g : list S) : Z :=
    match g with [] => 0%Z | s :: g' => (sfermi s * fold_right (fun s acc => sfermi s + acc) 0 g' + cross g')%Z end.
  Lemma cross_spec : forall g : list S,
    (fold_right (fun s acc => sfermi s + acc) 0 g * fold_right (fun s acc => sfermi s + acc) 0 g
     - fold_right (fun s acc => sfermi s * sfermi s + acc) 0 g = 2 * cross g)%Z.
  Proof. induction g as [|s g IH]; [reflexivity|]. simpl fold_right. simpl cross. lia. Qed.
  Lemma odd_sum_par : forall g : list S, Z.odd (fold_right (fun s acc => (sfermi s + acc)%Z) 0%Z g) = par sodd g.
  Proof. induction g as [|s g IH]; [reflexivity|]. cbn [fold_right par]. rewrite Z.odd_add, IH. reflexivity. Qed.
  Lemma par_and_const : forall A (f : A -> bool) c l, par (fun x => c && f x) l = c && par f l.
  Proof. induction l; simpl; [now rewrite andb_false_r|]. rewrite IHl. destruct c, (f a), (par f l); reflexivity. Qed.
  Lemma cross_odd : forall g : list S, Z.odd (cross g) = Nat.odd (odd_pairs sodd g).
  Proof.
    intro g. unfold odd_pairs. rewrite <- par_filter. induction g as [|s g IH]; [reflexivity|].
    cbn [cross ordered_pairs]. rewrite Z.odd_add, Z.odd_mul, IH, par_app, par_map, odd_sum_par. cbn [fst snd].
    now rewrite par_and_const.
  Qed.
  Lemma group_parity_pairs : forall g : list S, group_parity g = Nat.odd (odd_pairs sodd g).
  Proof.
    intro g. unfold group_parity. destruct (group_sums g 0%Z 0%Z) as [-> ->]. rewrite !Z.add_0_l, cross_spec, <- cross_odd.
    rewrite Z.mul_comm, Z.quot_mul by lia.
    generalize (cross g). intro c. destruct (Z.odd c) eqn:O.
    - apply negb_true_iff. apply Z.eqb_neq. intro H. apply Z.rem_divide in H; [|lia]. destruct H as [k Hk]. rewrite Hk in O.
      rewrite Z.odd_mul in O. simpl in O. rewrite andb_false_r in O. discriminate.
    - apply negb_false_iff. apply Z.eqb_eq. apply Z.rem_divide; [lia|].
      rewrite <- Z.negb_even in O. apply negb_false_iff in O. apply Z.even_spec in O as [k Hk]. exists k. lia.
  Qed.
  (** the sign of a group is that of reversing the group *)
  Lemma rev_pairs : forall (l : list nat) odd, NoDup l -> Nat.odd (exchanged_odd odd l (rev l)) = Nat.odd (odd_pairs odd l).
  Proof.
    intros l odd Hn. rewrite exchanged_par. unfold odd_pairs. rewrite <- par_filter. apply par_ext. intros [a b] H. cbn [fst snd].
    apply in_ordered_pairs in H as [i [j [L [H1 H2]]]].
    replace (comes_before (rev l) b a) with true; [now rewrite andb_true_r|]. symmetry. apply comes_before_iff.
    assert (i < length l) by (apply nth_error_Some; congruence). assert (j < length l) by (apply nth_error_Some; congruence).
    exists (length l - Datatypes.S j), (length l - Datatypes.S i). split; [lia|].
    split; rewrite (nth_error_nth' _ 0) by (rewrite rev_length; lia); rewrite rev_nth by lia; f_equal.
    - replace (length l - Datatypes.S (length l - Datatypes.S j)) with j by lia. now apply nth_error_nth.
    - replace (length l - Datatypes.S (length l - Datatypes.S i)) with i by lia. now apply nth_error_nth.
  Qed.
  (** all groups together *)
  Lemma split_merge_parity_groups : forall A (groups : list (list A)) (syms : list S) marks i,
    length syms = length (concat groups) -> length marks = length groups ->
    split_merge_parity_from i syms (flags_from i groups) marks =
    par (fun x : bool * list S => fst x && Nat.odd (odd_pairs sodd (snd x))) (combine marks (group_by groups syms)).
  Proof.
    induction groups as [|g gs IH]; intros syms [|v marks] i HL Hm; simpl in *; try discriminate; auto.
    rewrite app_length in HL.
    replace syms with (firstn (length g) syms ++ skipn (length g) syms) at 1 by apply firstn_skipn.
    rewrite take_group_spec by (rewrite firstn_length; lia).
    rewrite (IH _ marks (Datatypes.S i)) by (try rewrite skipn_length; lia).
    f_equal. destruct v; simpl; auto. apply group_parity_pairs.
  Qed.
  Lemma reverse_parity_par : forall (syms : list S) fl mk, length fl = length syms -> length mk = length syms ->
    get_reverse_parity syms fl mk = par (fun x : S * (bool * bool) => fst (snd x) && snd (snd x) && sodd (fst x)) (combine syms (combine fl mk)).
  Proof.
    induction syms as [|s syms IH]; intros [|f fl] [|m mk] H1 H2; simpl in *; try discriminate; auto.
    now rewrite IH by lia.
  Qed.
End Parity.
