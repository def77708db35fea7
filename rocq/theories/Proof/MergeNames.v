(** Combinatorics of the name lists of merge_edge and split_edge. *)
From Coq Require Import String List Bool Arith Lia Sorted Permutation.
From Verif Require Import Base.Outcome Base.SMap Model.Symmetry Model.Edge Model.Core Model.EdgeOperator
  Spec.Blocks Spec.Fuse Spec.Sign Spec.Relabel Proof.SymmetryFacts Proof.GroupFacts Proof.EdgeOperatorFacts Proof.SignFacts Proof.NamedOperator.
Import ListNotations.

Lemma member_In : forall n l, member n l = true <-> In n l.
Proof. exact mem_name_In. Qed.
Lemma member_false : forall n l, member n l = false <-> ~ In n l.
Proof. intros n l. rewrite <- member_In. destruct (member n l); split; congruence. Qed.

Lemma NoDup_app_intro : forall A (l1 l2 : list A), NoDup l1 -> NoDup l2 -> (forall x, In x l1 -> ~ In x l2) -> NoDup (l1 ++ l2).
Proof.
  induction l1 as [|x l1 IH]; intros l2 H1 H2 H3; [exact H2|]. inversion H1; subst. cbn [app]. constructor.
  - rewrite in_app_iff. intros [H|H]; [contradiction|]. apply (H3 x); auto. now left.
  - apply IH; auto. intros y Hy. apply H3. now right.
Qed.
Lemma NoDup_flat_map : forall A B (f : A -> list B) l, NoDup l -> (forall x, In x l -> NoDup (f x)) ->
  (forall x y z, In x l -> In y l -> In z (f x) -> In z (f y) -> x = y) -> NoDup (flat_map f l).
Proof.
  intros A B f l Hn. induction Hn as [|x l Hx Hn IH]; intros H1 H2; [constructor|]. cbn [flat_map].
  apply NoDup_app_intro.
  - apply H1. now left.
  - apply IH; [intros; apply H1; now right|]. intros y z w Hy Hz. apply H2; now right.
  - intros z Hz Hc. apply in_flat_map in Hc as [y [Hy Hzy]]. assert (x = y) by (eapply H2; eauto; [now left|now right]). subst. contradiction.
Qed.
Lemma flat_map_rev_short : forall A B (f : A -> list B) l, (forall x, In x l -> length (f x) <= 1) ->
  rev (flat_map f (rev l)) = flat_map f l.
Proof.
  induction l as [|x l IH]; intro H; [reflexivity|]. cbn [rev flat_map]. rewrite flat_map_app, rev_app_distr. cbn [flat_map].
  rewrite app_nil_r, IH by (intros; apply H; now right). f_equal.
  specialize (H x (or_introl eq_refl)). destruct (f x) as [|y [|z w]]; simpl in *; auto; lia.
Qed.
Lemma find_some_unique : forall A (f : A -> bool) l x, In x l -> f x = true -> (forall y, In y l -> f y = true -> y = x) -> find f l = Some x.
Proof.
  induction l as [|y l IH]; intros x Hi Hf Hu; [contradiction|]. cbn [find]. destruct (f y) eqn:E.
  - f_equal. apply Hu; auto. now left.
  - destruct Hi as [->|Hi]; [congruence|]. apply IH; auto. intros z Hz. apply Hu. now right.
Qed.
Lemma last_In : forall A (l : list A) d, l <> [] -> In (last l d) l.
Proof.
  induction l as [|x l IH]; intros d H; [congruence|]. destruct l as [|y l]; [now left|]. right. apply IH. discriminate.
Qed.

Section Target.
  Variables (names : list nat) (M : list (nat * list nat)).
  Hypothesis Hnames : NoDup names.
  Hypothesis Hkeys : NoDup (map fst M).
  Hypothesis Hgroups : NoDup (concat (map snd M)).
  Hypothesis Hincl : incl (concat (map snd M)) names.
  Hypothesis Hfresh : forall k, In k (map fst M) -> In k names -> In k (concat (map snd M)).

  Lemma entry_unique : forall k l n k' l', In (k, l) M -> In (k', l') M -> In n l -> In n l' -> (k, l) = (k', l').
  Proof.
    clear Hkeys Hincl Hfresh. revert Hgroups. induction M as [|[k0 l0] M0 IH]; intros Hg k l n k' l' H1 H2 N1 N2; [contradiction|].
    cbn [map snd concat] in Hg. apply NoDup_app_inv in Hg as [G1 [G2 G3]].
    assert (HC : forall k1 l1, In (k1, l1) M0 -> In n l1 -> In n (concat (map snd M0))).
    { intros k1 l1 Hi Hn. apply in_concat. exists l1. split; auto. change l1 with (snd (k1, l1)). now apply in_map. }
    destruct H1 as [H1|H1], H2 as [H2|H2].
    - congruence.
    - injection H1 as -> ->. exfalso. apply (G3 n N1). eapply HC; eauto.
    - injection H2 as -> ->. exfalso. apply (G3 n N2). eapply HC; eauto.
    - eapply IH; eauto.
  Qed.
  Lemma find_group : forall k l n, In (k, l) M -> In n l -> find (fun nl => member n (snd nl)) M = Some (k, l).
  Proof.
    intros k l n H1 H2. apply find_some_unique; auto.
    - cbn [snd]. now apply member_In.
    - intros [k' l'] H3 H4. cbn [snd] in H4. apply member_In in H4. eapply entry_unique; eauto.
  Qed.
  Lemma find_no_group : forall n, ~ In n (concat (map snd M)) -> find (fun nl => member n (snd nl)) M = None.
  Proof.
    intros n H. destruct (find _ M) as [[k l]|] eqn:E; auto. apply find_some in E as [E1 E2]. cbn [snd] in E2. apply member_In in E2.
    exfalso. apply H. apply in_concat. exists l. split; auto. change l with (snd (k, l)). now apply in_map.
  Qed.
  Definition piece (n : nat) : list nat :=
    match find (fun nl => member n (snd nl)) M with
    | Some nl => if Nat.eqb n (last (snd nl) 0) then [fst nl] else []
    | None => [n]
    end.
  Lemma piece_in : forall n z, In z (piece n) <->
    (~ In n (concat (map snd M)) /\ z = n) \/ exists l, In (z, l) M /\ In n l /\ n = last l 0.
  Proof.
    intros n z. unfold piece. destruct (find _ M) as [[k l]|] eqn:E.
    - apply find_some in E as [E1 E2]. cbn [fst snd] in *. apply member_In in E2.
      assert (HI : In n (concat (map snd M))) by (apply in_concat; exists l; split; auto; change l with (snd (k, l)); now apply in_map).
      destruct (Nat.eqb_spec n (last l 0)) as [El|El]; split.
      + intros [<-|[]]. right. exists l. auto.
      + intros [[H _]|[l' [H1 [H2 H3]]]]; [contradiction|]. left. assert (Eq := entry_unique _ _ _ _ _ E1 H1 E2 H2). congruence.
      + intros [].
      + intros [[H _]|[l' [H1 [H2 H3]]]]; [contradiction|]. exfalso. apply El. assert (Eq := entry_unique _ _ _ _ _ E1 H1 E2 H2). congruence.
    - assert (HN : ~ In n (concat (map snd M))).
      { intro H. apply in_concat in H as [l [H1 H2]]. apply in_map_iff in H1 as [[k l'] [<- H1]].
        apply find_none with (x := (k, l')) in E; auto. cbn [snd] in *. apply member_false in E. contradiction. }
      split.
      + intros [<-|[]]. left. auto.
      + intros [[_ ->]|[l [H1 [H2 _]]]]; [now left|]. exfalso. apply HN. apply in_concat. exists l. split; auto. change l with (snd (z, l)). now apply in_map.
  Qed.
  Lemma piece_short : forall n, length (piece n) <= 1.
  Proof. intro n. unfold piece. destruct (find _ M) as [nl|]; [destruct (Nat.eqb _ _)|]; simpl; lia. Qed.

  Lemma merged_names_in : forall z, In z (merged_names names M) <-> In z (map fst M) \/ (In z names /\ ~ In z (concat (map snd M))).
  Proof.
    intro z. unfold merged_names. rewrite in_app_iff, <- in_rev, in_map_iff, in_flat_map. split.
    - intros [[[k l] [<- H]]|[n [Hn Hz]]].
      + apply filter_In in H as [H _]. left. now apply in_map.
      + apply piece_in in Hz as [[H1 ->]|[l [H1 [H2 H3]]]]; [now right|left]. change z with (fst (z, l)). now apply in_map.
    - intros [H|[H1 H2]].
      + apply in_map_iff in H as [[k l] [<- H]]. cbn [fst]. destruct l as [|x l].
        * left. exists (k, []). split; auto. apply filter_In. auto.
        * right. exists (last (x :: l) 0). assert (HI : In (last (x :: l) 0) (x :: l)) by (apply last_In; discriminate). split.
          -- apply Hincl. apply in_concat. exists (x :: l). split; auto. change (x :: l) with (snd (k, x :: l)). now apply in_map.
          -- apply piece_in. right. exists (x :: l). auto.
      + right. exists z. split; auto. apply piece_in. left. auto.
  Qed.
  Lemma merged_names_NoDup : NoDup (merged_names names M).
  Proof.
    unfold merged_names. apply NoDup_app_intro.
    - apply NoDup_rev. clear - Hkeys. induction M as [|[k l] M0 IH]; [constructor|]. cbn [map fst] in Hkeys. inversion Hkeys; subst.
      cbn [filter]. destruct (Nat.eqb _ 0); [|now apply IH]. cbn [map fst]. constructor; [|now apply IH].
      intro H. apply H1. apply in_map_iff in H as [x [<- H]]. apply filter_In in H as [H _]. now apply in_map.
    - apply (NoDup_flat_map _ _ piece); auto.
      + intros x _. pose proof (piece_short x). destruct (piece x) as [|y [|z w]]; simpl in *; [constructor|constructor; [intros []|constructor]|lia].
      + intros x y z Hx Hy H1 H2. apply piece_in in H1 as [[A1 ->]|[l [A1 [A2 A3]]]]; apply piece_in in H2 as [[B1 E2]|[l' [B1 [B2 B3]]]].
        * auto.
        * exfalso. apply A1. apply Hfresh; auto. change x with (fst (x, l')). now apply in_map.
        * subst z. exfalso. apply B1. apply Hfresh; auto. change y with (fst (y, l)). now apply in_map.
        * assert (l = l'); [|congruence]. pose proof (In_mfind_nodup _ _ _ Hkeys A1). pose proof (In_mfind_nodup _ _ _ Hkeys B1). congruence.
    - intros z H1 H2. apply in_rev in H1. apply in_map_iff in H1 as [[k l] [<- H1]]. apply filter_In in H1 as [H1 Hl]. cbn [fst snd] in *.
      destruct l; [|discriminate]. apply in_flat_map in H2 as [n [Hn H2]]. apply piece_in in H2 as [[A1 ->]|[l [A1 [A2 A3]]]].
      + apply A1. apply Hfresh; auto. change n with (fst (n, @nil nat)). now apply in_map.
      + pose proof (In_mfind_nodup _ _ _ Hkeys A1). pose proof (In_mfind_nodup _ _ _ Hkeys H1). rewrite H in H0. injection H0 as ->. contradiction.
  Qed.
  Lemma group_of_key : forall k l, In (k, l) M -> group_of M k = l.
  Proof. intros k l H. unfold group_of. now rewrite (In_mfind_nodup _ _ _ Hkeys H). Qed.
  Lemma group_of_other : forall n, ~ In n (map fst M) -> group_of M n = [n].
  Proof. intros n H. unfold group_of. apply mfind_None in H. now rewrite H. Qed.
  Lemma target_cases : forall z, In z (merged_names names M) ->
    (exists l, In (z, l) M /\ group_of M z = l) \/ (In z names /\ ~ In z (concat (map snd M)) /\ ~ In z (map fst M) /\ group_of M z = [z]).
  Proof.
    intros z H. apply merged_names_in in H. destruct (in_dec Nat.eq_dec z (map fst M)) as [Hk|Hk].
    - left. apply in_map_iff in Hk as [[k l] [<- Hk]]. exists l. split; auto. now apply group_of_key.
    - destruct H as [H|[H1 H2]]; [contradiction|]. right. split; auto. split; auto. split; auto. now apply group_of_other.
  Qed.
  Lemma merged_groups_perm : Permutation names (flat_map (group_of M) (merged_names names M)).
  Proof.
    apply NoDup_Permutation; auto.
    - apply NoDup_flat_map.
      + apply merged_names_NoDup.
      + intros x Hx. apply target_cases in Hx as [[l [H1 ->]]|[_ [_ [_ ->]]]]; [|constructor; [intros []|constructor]].
        clear - H1 Hgroups. induction M as [|[k0 l0] M0 IH]; [contradiction|]. cbn [map snd concat] in Hgroups.
        apply NoDup_app_inv in Hgroups as [G1 [G2 _]]. destruct H1 as [H1|H1]; [injection H1 as -> ->; auto|auto].
      + intros x y z Hx Hy H1 H2. apply target_cases in Hx as [[l [A1 Ea]]|[A1 [A2 [A3 Ea]]]]; apply target_cases in Hy as [[l' [B1 Eb]]|[B1 [B2 [B3 Eb]]]];
          rewrite Ea in H1; rewrite Eb in H2.
        * assert (Eq := entry_unique _ _ _ _ _ A1 B1 H1 H2). congruence.
        * destruct H2 as [<-|[]]. exfalso. apply B2. apply in_concat. exists l. split; auto. change l with (snd (x, l)). now apply in_map.
        * destruct H1 as [<-|[]]. exfalso. apply A2. apply in_concat. exists l'. split; auto. change l' with (snd (y, l')). now apply in_map.
        * destruct H1 as [<-|[]], H2 as [H2|[]]. auto.
    - intro n. rewrite in_flat_map. split.
      + intro Hn. destruct (in_dec Nat.eq_dec n (concat (map snd M))) as [Hc|Hc].
        * apply in_concat in Hc as [l [H1 H2]]. apply in_map_iff in H1 as [[k l'] [<- H1]]. cbn [snd] in *. exists k. split.
          -- apply merged_names_in. left. change k with (fst (k, l')). now apply in_map.
          -- now rewrite (group_of_key k l').
        * exists n. split; [apply merged_names_in; auto|]. rewrite group_of_other; [now left|]. intro Hk. apply Hc. now apply Hfresh.
      + intros [z [Hz H]]. apply target_cases in Hz as [[l [H1 Eg]]|[H1 [_ [_ Eg]]]]; rewrite Eg in H.
        * apply Hincl. apply in_concat. exists l. split; auto. change l with (snd (z, l)). now apply in_map.
        * destruct H as [<-|[]]. exact H1.
  Qed.
End Target.

Lemma drop_absent_effective : forall names merge, drop_absent names merge = effective names merge.
Proof. reflexivity. Qed.
Lemma effective_keys : forall names merge, map fst (effective names merge) = map fst merge.
Proof. intros. unfold effective. rewrite map_map. reflexivity. Qed.
Lemma effective_incl : forall names merge, incl (concat (map snd (effective names merge))) names.
Proof.
  intros names merge n H. apply in_concat in H as [l [H1 H2]]. apply in_map_iff in H1 as [[k l'] [<- H1]].
  unfold effective in H1. apply in_map_iff in H1 as [[k0 l0] [E H1]]. injection E as <- <-. cbn [snd] in H2.
  apply filter_In in H2 as [_ H2]. now apply member_In.
Qed.
Lemma merge_target_names : forall names M, merge_target M names = merged_names names M.
Proof.
  intros names M. unfold merge_target, merged_names. rewrite rev_app_distr. f_equal.
  - f_equal. f_equal. apply filter_ext. intros [k l]. cbn [snd]. destruct l; reflexivity.
  - apply (flat_map_rev_short _ _ (piece M)). intros x _. apply piece_short.
Qed.

(** the number of pairs inside the selected groups is the sign of reversing these groups *)
Lemma exchanged_app : forall odd l1 l2 r1 r2, NoDup (l1 ++ l2) -> Permutation l1 r1 -> Permutation l2 r2 ->
  Nat.odd (exchanged_odd odd (l1 ++ l2) (r1 ++ r2)) = xorb (Nat.odd (exchanged_odd odd l1 r1)) (Nat.odd (exchanged_odd odd l2 r2)).
Proof.
  intros odd l1 l2 r1 r2 Hn P1 P2.
  assert (Hop : forall A (a b : list A) (f : A * A -> bool), (forall x y, In x a -> In y b -> f (x, y) = false) ->
     par f (ordered_pairs (a ++ b)) = xorb (par f (ordered_pairs a)) (par f (ordered_pairs b))).
  { intros A a b f H. induction a as [|x a IH]; [simpl; now destruct (par f (ordered_pairs b))|]. cbn [app ordered_pairs].
    rewrite map_app, !par_app, IH by (intros; apply H; auto; now right).
    rewrite (par_false _ f (map (pair x) b)).
    - destruct (par f (map (pair x) a)), (par f (ordered_pairs a)), (par f (ordered_pairs b)); reflexivity.
    - intros p Hp. apply in_map_iff in Hp as [y [<- Hy]]. apply H; auto. now left. }
  pose proof (NoDup_app_inv _ _ _ Hn) as [N1 [N2 N3]].
  assert (Hr : NoDup (r1 ++ r2)) by (eapply Permutation_NoDup; [apply Permutation_app; eauto|auto]).
  assert (CB : forall x y, comes_before (r1 ++ r2) x y = true <->
     (comes_before r1 x y = true) \/ (In x r1 /\ In y r2) \/ (comes_before r2 x y = true)).
  { intros x y. rewrite !comes_before_iff, <- !in_ordered_pairs. clear. induction r1 as [|z r IH]; cbn [app ordered_pairs].
    - simpl. tauto.
    - rewrite map_app, !in_app_iff, IH, !in_map_iff. split.
      + intros [[[w [E H]]|[w [E H]]]|[H|[[H1 H2]|H]]].
        * left. left. eauto.
        * injection E as <- <-. right. left. split; auto. now left.
        * left. now right.
        * right. left. split; auto. now right.
        * auto.
      + intros [[[w [E H]]|H]|[[[<-|H1] H2]|H]].
        * left. left. eauto.
        * right. now left.
        * left. right. eauto.
        * right. right. left. auto.
        * auto. }
  rewrite !exchanged_par. rewrite Hop.
  - f_equal; apply par_ext; intros [x y] HI; cbn [fst snd]; f_equal.
    + pose proof (ordered_pairs_distinct _ _ _ _ N1 HI) as [Hxy [Hx Hy]].
      apply eq_true_iff_eq. rewrite CB. split; [|auto]. intros [H|[[_ H]|H]]; auto; exfalso.
      * apply (N3 x Hx). eapply Permutation_in; [apply Permutation_sym; eauto|auto].
      * apply comes_before_iff in H as [i [j [_ [H _]]]]. apply nth_error_In in H. apply (N3 y Hy). eapply Permutation_in; [apply Permutation_sym; eauto|auto].
    + pose proof (ordered_pairs_distinct _ _ _ _ N2 HI) as [Hxy [Hx Hy]].
      apply eq_true_iff_eq. rewrite CB. split; [|auto]. intros [H|[[H _]|H]]; auto; exfalso.
      * apply comes_before_iff in H as [i [j [_ [H _]]]]. apply nth_error_In in H. apply (N3 y); auto. eapply Permutation_in; [apply Permutation_sym; eauto|auto].
      * apply (N3 y); auto. eapply Permutation_in; [apply Permutation_sym; eauto|auto].
  - intros x y Hx Hy. cbn [fst snd]. destruct (comes_before (r1 ++ r2) y x) eqn:Ec; [|now rewrite andb_false_r]. exfalso.
    apply CB in Ec as [H|[[H _]|H]].
    + apply comes_before_iff in H as [i [j [_ [H _]]]]. apply nth_error_In in H. apply (N3 y); auto. eapply Permutation_in; [apply Permutation_sym; eauto|auto].
    + apply (N3 y); auto. eapply Permutation_in; [apply Permutation_sym; eauto|auto].
    + apply comes_before_iff in H as [i [j [_ [_ H]]]]. apply nth_error_In in H. apply (N3 x); auto. eapply Permutation_in; [apply Permutation_sym; eauto|auto].
Qed.
Lemma pairs_in_reversal : forall odd sel (gs : list (nat * list nat)), NoDup (concat (map snd gs)) ->
  Nat.odd (pairs_in odd sel gs) =
  Nat.odd (exchanged_odd odd (concat (map snd gs)) (concat (map (fun nl => if sel (fst nl) : bool then rev (snd nl) else snd nl) gs))).
Proof.
  intros odd sel gs. induction gs as [|[k l] gs IH]; intro Hn; [reflexivity|]. cbn [map concat fst snd] in *.
  rewrite exchanged_app; auto.
  - unfold pairs_in in *. cbn [map fst snd]. unfold list_sum in *. cbn [fold_right]. rewrite Nat.odd_add.
    apply NoDup_app_inv in Hn as [N1 [N2 _]]. rewrite IH by auto. f_equal. destruct (sel k).
    + symmetry. now apply rev_pairs.
    + now rewrite exchanged_self.
  - destruct (sel k); [apply Permutation_rev|reflexivity].
  - clear. induction gs as [|[k l] gs IH]; [constructor|]. cbn [map concat fst snd]. apply Permutation_app; auto.
    destruct (sel k); [apply Permutation_rev|reflexivity].
Qed.
