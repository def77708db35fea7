(** Lemmas for C40, C42: the schedules. *)
From Coq Require Import String List Bool Arith ZArith Lia Permutation.
From Verif Require Import Base.Outcome Base.SMap Model.Symmetry Model.Schedule Spec.Bonds Proof.SymmetryFacts.
Import ListNotations.
Open Scope Z_scope.

Lemma nodup_app : forall A (l1 l2 : list A), NoDup l1 -> NoDup l2 -> (forall x, In x l1 -> ~ In x l2) -> NoDup (l1 ++ l2).
Proof.
  intros A l1 l2 H1 H2. induction H1 as [|a l1 Ha H1 IH]; intros H; cbn; [exact H2|]. constructor.
  - rewrite in_app_iff. intros [K|K]; [contradiction|]. apply (H a); [left; reflexivity|exact K].
  - apply IH. intros x Hx. apply H. right. exact Hx.
Qed.
Lemma contains_In : forall keys p, contains keys p = true <-> In p keys.
Proof.
  intros keys p. unfold contains. rewrite existsb_exists. split.
  - intros [x [Hx E]]. apply eqb_eq in E. subst. exact Hx.
  - intros H. exists p. split; [exact H|apply eqb_refl].
Qed.
Lemma in_if_found : forall keys p x, In x (if_found keys p) <-> x = p /\ In p keys.
Proof.
  intros keys p x. unfold if_found. destruct (contains keys p) eqn:E.
  - apply contains_In in E. cbn. intuition congruence.
  - split; [intros []|]. intros [_ H]. apply contains_In in H. congruence.
Qed.
Lemma nodup_if_found : forall keys p, NoDup (if_found keys p).
Proof. intros keys p. unfold if_found. destruct (contains keys p); repeat constructor. intros []. Qed.
Lemma in_upto : forall n i, In i (upto n) <-> 0 <= i < n.
Proof.
  intros n i. unfold upto. rewrite in_map_iff. setoid_rewrite in_seq. split.
  - intros [k [<- H]]. lia.
  - intros H. exists (Z.to_nat i). lia.
Qed.
Lemma nodup_upto : forall n, NoDup (upto n).
Proof. intros n. unfold upto. apply FinFun.Injective_map_NoDup; [intros a b; apply Nat2Z.inj|apply seq_NoDup]. Qed.
Lemma nodup_flat_map : forall A B (f : A -> list B) l, NoDup l -> (forall a, In a l -> NoDup (f a)) ->
  (forall a b x, In a l -> In b l -> In x (f a) -> In x (f b) -> a = b) -> NoDup (flat_map f l).
Proof.
  intros A B f l ND. induction ND as [|a l Ha ND IH]; intros Hf Hd; cbn; [constructor|]. apply nodup_app.
  - apply Hf. left. reflexivity.
  - apply IH; [intros b Hb; apply Hf; right; exact Hb|]. intros b c x Hb Hc. apply Hd; right; assumption.
  - intros x Hx H. apply in_flat_map in H. destruct H as [b [Hb Hx']]. assert (a = b) by (apply (Hd a b x); [left; reflexivity|right; exact Hb|exact Hx|exact Hx']). subst. contradiction.
Qed.

(** ** Markov *)
Lemma in_candidates : forall M N keys p, In p (markov_candidates M N keys) <-> In p keys /\ exists i j, 0 <= i < M /\ 0 <= j < N /\
  (p = [(i, j)] \/ p = [(i, j); (i, j + 1)] \/ p = [(i, j + 1); (i, j)] \/ p = [(i, j); (i + 1, j)] \/ p = [(i + 1, j); (i, j)]).
Proof.
  intros M N keys p. unfold markov_candidates. rewrite in_app_iff, !in_flat_map. setoid_rewrite in_flat_map. setoid_rewrite in_app_iff. setoid_rewrite in_app_iff. setoid_rewrite in_if_found. setoid_rewrite in_upto. split.
  - intros [[i [Hi [j [Hj H]]]]|[j [Hj [i [Hi H]]]]].
    + destruct H as [[-> H]|[[-> H]|[-> H]]]; (split; [exact H|]); exists i, j; repeat (split; [lia|]); tauto.
    + destruct H as [[-> H]|[-> H]]; (split; [exact H|]); exists i, j; repeat (split; [lia|]); tauto.
  - intros [Hp [i [j [Hi [Hj H]]]]]. destruct H as [E|[E|[E|[E|E]]]]; subst p.
    + left. exists i. split; [exact Hi|]. exists j. split; [exact Hj|]. tauto.
    + left. exists i. split; [exact Hi|]. exists j. split; [exact Hj|]. tauto.
    + left. exists i. split; [exact Hi|]. exists j. split; [exact Hj|]. tauto.
    + right. exists j. split; [exact Hj|]. exists i. split; [exact Hi|]. tauto.
    + right. exists j. split; [exact Hj|]. exists i. split; [exact Hi|]. tauto.
Qed.
Ltac found := repeat match goal with
  | H : In _ (if_found _ _) |- _ => apply in_if_found in H; destruct H as [? _]
  | H : In _ (_ ++ _) |- _ => apply in_app_iff in H; destruct H as [H|H]
  end.
Ltac same_site := repeat match goal with
  | H : _ :: _ = _ :: _ |- _ => inversion H; clear H
  | H : [] = _ :: _ |- _ => discriminate H
  | H : _ :: _ = [] |- _ => discriminate H
  end; subst; try lia.
Lemma nodup_candidates : forall M N keys, NoDup (markov_candidates M N keys).
Proof.
  intros M N keys. unfold markov_candidates. apply nodup_app.
  - apply nodup_flat_map; [apply nodup_upto| |].
    + intros i _. apply nodup_flat_map; [apply nodup_upto| |].
      * intros j _. apply nodup_app; [apply nodup_if_found|apply nodup_app; [apply nodup_if_found|apply nodup_if_found|]|]; intros x H1 H2; found; subst; same_site.
      * intros j j' x _ _ H1 H2. found; subst; same_site.
    + intros i i' x _ _ H1 H2. apply in_flat_map in H1, H2. destruct H1 as [j [_ H1]], H2 as [j' [_ H2]]. found; subst; same_site.
  - apply nodup_flat_map; [apply nodup_upto| |].
    + intros i _. apply nodup_flat_map; [apply nodup_upto| |].
      * intros j _. apply nodup_app; [apply nodup_if_found|apply nodup_if_found|]; intros x H1 H2; found; subst; same_site.
      * intros j j' x _ _ H1 H2. found; subst; same_site.
    + intros i i' x _ _ H1 H2. apply in_flat_map in H1, H2. destruct H1 as [j [_ H1]], H2 as [j' [_ H2]]. found; subst; same_site.
  - intros x H1 H2. apply in_flat_map in H1, H2. destruct H1 as [i [_ H1]], H2 as [j [_ H2]]. apply in_flat_map in H1, H2. destruct H1 as [i' [_ H1]], H2 as [j' [_ H2]].
    found; subst; same_site.
Qed.
Theorem markov_exactly_once : forall M N keys s, NoDup keys -> markov_sequence M N keys = Ok s -> Permutation s keys.
Proof.
  intros M N keys s ND H. unfold markov_sequence in H. destruct (Nat.eqb_spec (length (markov_candidates M N keys)) (length keys)) as [E|E]; [|discriminate].
  injection H as <-. apply NoDup_Permutation_bis; [apply nodup_candidates|lia|]. intros p Hp. apply in_candidates in Hp. tauto.
Qed.
Lemma neighbours : forall a b, adjacent a b -> (exists i j, [a; b] = [(i, j); (i, j + 1)]) \/ (exists i j, [a; b] = [(i, j + 1); (i, j)]) \/
  (exists i j, [a; b] = [(i, j); (i + 1, j)]) \/ (exists i j, [a; b] = [(i + 1, j); (i, j)]).
Proof.
  intros [x y] [x' y'] H. unfold adjacent in H. cbn in H. destruct (Z.eq_dec x x') as [->|Hx].
  - assert (y' = y + 1 \/ y = y' + 1) as [-> | ->] by lia; [left; exists x', y; reflexivity|right; left; exists x', y'; reflexivity].
  - assert (y = y') as -> by lia. assert (x' = x + 1 \/ x = x' + 1) as [-> | ->] by lia; [right; right; left; exists x, y'; reflexivity|right; right; right; exists x', y'; reflexivity].
Qed.
Theorem markov_succeeds : forall M N keys, NoDup keys -> (forall p, In p keys -> local_term p /\ forall a, In a p -> inside M N a) -> exists s, markov_sequence M N keys = Ok s.
Proof.
  intros M N keys ND H. exists (markov_candidates M N keys). unfold markov_sequence.
  assert (P : Permutation (markov_candidates M N keys) keys).
  { apply NoDup_Permutation; [apply nodup_candidates|exact ND|]. intros p. rewrite in_candidates. split; [tauto|]. intros Hp. split; [exact Hp|].
    destruct (H p Hp) as [[[[i j] ->]|[a [b [-> Ha]]]] Hin].
    - destruct (Hin (i, j) (or_introl eq_refl)) as [H1 H2]. cbn in *. exists i, j. tauto.
    - assert (A := Hin a (or_introl eq_refl)). assert (B := Hin b (or_intror (or_introl eq_refl))). unfold inside in A, B.
      destruct (neighbours a b Ha) as [[i [j E]]|[[i [j E]]|[[i [j E]]|[i [j E]]]]]; inversion E; subst; cbn in A, B; exists i, j; (split; [lia|split; [lia|]]); tauto. }
  apply Permutation_length in P. rewrite P, Nat.eqb_refl. reflexivity.
Qed.
Theorem markov_fails : forall M N keys e, markov_sequence M N keys = Throw e -> e = NotImplementedError "Unsupported markov sampling style".
Proof. intros M N keys e H. unfold markov_sequence in H. destruct (negb _); [injection H as <-; reflexivity|discriminate]. Qed.

(** ** Simple update *)
Definition group_test (k : nat) : positions -> bool := nth k [in_group0; in_horizontal 0; in_horizontal 1; in_vertical 0; in_vertical 1] (fun _ => false).
Lemma groups_tests : forall keys, simple_update_groups keys = map (fun k => filter (group_test k) keys) (seq 0 5).
Proof. reflexivity. Qed.
Lemma horizontal_spec : forall parity p, in_horizontal parity p = true -> exists x y, Z.rem y 2 = parity /\ (p = [(x, y); (x, y + 1)] \/ p = [(x, y + 1); (x, y)]).
Proof.
  intros parity [|[x1 y1] [|[x2 y2] [|]]] H; try discriminate. cbn in H. apply andb_prop in H. destruct H as [Hx H]. apply Z.eqb_eq in Hx. subst x2.
  apply orb_prop in H. destruct H as [H|H]; apply andb_prop in H; destruct H as [H1 H2]; apply Z.eqb_eq in H1, H2; subst; eauto.
Qed.
Lemma vertical_spec : forall parity p, in_vertical parity p = true -> exists x y, Z.rem x 2 = parity /\ (p = [(x, y); (x + 1, y)] \/ p = [(x + 1, y); (x, y)]).
Proof.
  intros parity [|[x1 y1] [|[x2 y2] [|]]] H; try discriminate. cbn in H. apply andb_prop in H. destruct H as [Hx H]. apply Z.eqb_eq in Hx. subst y2.
  apply orb_prop in H. destruct H as [H|H]; apply andb_prop in H; destruct H as [H1 H2]; apply Z.eqb_eq in H1, H2; subst; eauto.
Qed.
Lemma group0_spec : forall p, in_group0 p = true -> exists a, p = [a].
Proof. intros [|a [|]] H; try discriminate. eauto. Qed.
Ltac group_cases k H :=
  destruct k as [|[|[|[|[|k]]]]]; cbn [group_test nth] in H;
  [apply group0_spec in H; destruct H as [? ?]|apply horizontal_spec in H; destruct H as [? [? [? H]]]|apply horizontal_spec in H; destruct H as [? [? [? H]]]
  |apply vertical_spec in H; destruct H as [? [? [? H]]]|apply vertical_spec in H; destruct H as [? [? [? H]]]|try (destruct k; discriminate H)].
Lemma group_test_unique : forall k k' p, group_test k p = true -> group_test k' p = true -> k = k'.
Proof.
  intros k k' p H H'. group_cases k H; group_cases k' H'; try reflexivity; subst; try discriminate; try (exfalso; destruct k'; discriminate);
    exfalso; repeat match goal with H : _ \/ _ |- _ => destruct H; subst; try discriminate end; same_site.
Qed.
Lemma sequence_ok : forall keys gs, simple_update_sequence keys = Ok gs -> gs = simple_update_groups keys /\ length (concat gs) = length keys.
Proof.
  intros keys gs H. unfold simple_update_sequence in H. destruct (Nat.eqb_spec (fold_left (fun n g => (n + length g)%nat) (simple_update_groups keys) 0%nat) (length keys)) as [E|E]; [|discriminate].
  injection H as <-. split; [reflexivity|]. rewrite <- E. unfold simple_update_groups. cbn [concat fold_left]. rewrite !app_length. cbn [length]. lia.
Qed.
Lemma groups_nodup : forall keys, NoDup keys -> NoDup (concat (simple_update_groups keys)).
Proof.
  intros keys ND. rewrite groups_tests, <- flat_map_concat_map. apply nodup_flat_map; [apply seq_NoDup| |].
  - intros k _. apply NoDup_filter. exact ND.
  - intros k k' p _ _ H H'. apply filter_In in H, H'. apply (group_test_unique k k' p); tauto.
Qed.
Theorem simple_update_exactly_once : forall keys gs, NoDup keys -> simple_update_sequence keys = Ok gs -> Permutation (concat gs) keys.
Proof.
  intros keys gs ND H. destruct (sequence_ok keys gs H) as [-> L]. apply NoDup_Permutation_bis; [apply groups_nodup; exact ND|lia|].
  intros p Hp. rewrite groups_tests, <- flat_map_concat_map in Hp. apply in_flat_map in Hp. destruct Hp as [k [_ Hp]]. apply filter_In in Hp. tauto.
Qed.
Lemma in_groups : forall keys g p, In g (simple_update_groups keys) -> In p g -> exists k, (k < 5)%nat /\ g = filter (group_test k) keys /\ group_test k p = true /\ In p keys.
Proof.
  intros keys g p Hg Hp. rewrite groups_tests in Hg. apply in_map_iff in Hg. destruct Hg as [k [<- Hk]]. apply in_seq in Hk. exists k.
  apply filter_In in Hp. split; [lia|]. split; [reflexivity|]. tauto.
Qed.
Lemma parity_cases : forall y, 0 <= y -> Z.rem y 2 = 0 \/ Z.rem y 2 = 1.
Proof. intros y H. Z.to_euclidean_division_equations; lia. Qed.
Theorem simple_update_succeeds : forall M N (keys : list positions), NoDup keys -> (forall p, In p keys -> local_term p /\ forall a, In a p -> inside M N a) -> exists gs, simple_update_sequence keys = Ok gs.
Proof.
  intros M N keys ND H. exists (simple_update_groups keys). unfold simple_update_sequence.
  assert (P : Permutation (concat (simple_update_groups keys)) keys).
  { apply NoDup_Permutation; [apply groups_nodup; exact ND|exact ND|]. intros p. rewrite groups_tests, <- flat_map_concat_map, in_flat_map. split.
    - intros [k [_ Hp]]. apply filter_In in Hp. tauto.
    - intros Hp. assert (Q : exists k, (k < 5)%nat /\ group_test k p = true).
      { destruct (H p Hp) as [[[[i j] ->]|[a [b [-> Ha]]]] Hin]; [exists 0%nat; split; [lia|reflexivity]|].
        assert (A := Hin a (or_introl eq_refl)). assert (B := Hin b (or_intror (or_introl eq_refl))). unfold inside in A, B.
        destruct (neighbours a b Ha) as [[i [j E]]|[[i [j E]]|[[i [j E]]|[i [j E]]]]]; inversion E; subst; cbn in A, B.
        - destruct (parity_cases j ltac:(lia)) as [Pj|Pj]; [exists 1%nat|exists 2%nat]; (split; [lia|]); cbn; rewrite !Z.eqb_refl, Pj; reflexivity.
        - destruct (parity_cases j ltac:(lia)) as [Pj|Pj]; [exists 1%nat|exists 2%nat]; (split; [lia|]); cbn; rewrite !Z.eqb_refl, Pj; cbn; rewrite orb_true_r; reflexivity.
        - destruct (parity_cases i ltac:(lia)) as [Pj|Pj]; [exists 3%nat|exists 4%nat]; (split; [lia|]); cbn; rewrite !Z.eqb_refl, Pj; reflexivity.
        - destruct (parity_cases i ltac:(lia)) as [Pj|Pj]; [exists 3%nat|exists 4%nat]; (split; [lia|]); cbn; rewrite !Z.eqb_refl, Pj; cbn; rewrite orb_true_r; reflexivity. }
      destruct Q as [k [Hk Q]]. exists k. split; [apply in_seq; lia|]. apply filter_In. tauto. }
  apply Permutation_length in P. assert (Q : fold_left (fun n g => (n + length g)%nat) (simple_update_groups keys) 0%nat = length keys).
  { etransitivity; [|exact P]. unfold simple_update_groups. cbn [concat fold_left]. rewrite !app_length. cbn [length]. lia. }
  destruct (Nat.eqb_spec (fold_left (fun n g => (n + length g)%nat) (simple_update_groups keys) 0%nat) (length keys)); [reflexivity|contradiction].
Qed.
Lemma same_bond_twice : forall keys (a b : site) p q, oriented keys -> In p keys -> In q keys -> a <> b -> p = [a; b] \/ p = [b; a] -> q = [a; b] \/ q = [b; a] -> p = q.
Proof.
  intros keys a b p q Or Kp Kq Ne [-> | ->] [-> | ->]; try reflexivity; exfalso; apply Ne; [|symmetry]; apply Or; assumption.
Qed.
Lemma horizontal_disjoint : forall parity keys p q s, 0 <= parity -> oriented keys -> In p keys -> In q keys -> in_horizontal parity p = true -> in_horizontal parity q = true ->
  In s p -> In s q -> p = q.
Proof.
  intros parity keys p q s Hpar Or Kp Kq Tp Tq Sp Sq. apply horizontal_spec in Tp, Tq. destruct Tp as [x [y [Py Ep]]], Tq as [x' [y' [Py' Eq]]].
  assert (Sp' : s = (x, y) \/ s = (x, y + 1)) by (destruct Ep; subst p; cbn in Sp; intuition congruence).
  assert (Sq' : s = (x', y') \/ s = (x', y' + 1)) by (destruct Eq; subst q; cbn in Sq; intuition congruence).
  assert (x = x' /\ y = y') as [<- <-].
  { destruct Sp' as [-> | ->], Sq' as [E|E]; injection E as E1 E2; clear Ep Eq; split; clear Sp Sq; Z.to_euclidean_division_equations; lia. }
  apply (same_bond_twice keys (x, y) (x, y + 1)); try assumption. intros E. inversion E. lia.
Qed.
Lemma vertical_disjoint : forall parity keys p q s, 0 <= parity -> oriented keys -> In p keys -> In q keys -> in_vertical parity p = true -> in_vertical parity q = true ->
  In s p -> In s q -> p = q.
Proof.
  intros parity keys p q s Hpar Or Kp Kq Tp Tq Sp Sq. apply vertical_spec in Tp, Tq. destruct Tp as [x [y [Py Ep]]], Tq as [x' [y' [Py' Eq]]].
  assert (Sp' : s = (x, y) \/ s = (x + 1, y)) by (destruct Ep; subst p; cbn in Sp; intuition congruence).
  assert (Sq' : s = (x', y') \/ s = (x' + 1, y')) by (destruct Eq; subst q; cbn in Sq; intuition congruence).
  assert (x = x' /\ y = y') as [<- <-].
  { destruct Sp' as [-> | ->], Sq' as [E|E]; injection E as E1 E2; clear Ep Eq; split; clear Sp Sq; Z.to_euclidean_division_equations; lia. }
  apply (same_bond_twice keys (x, y) (x + 1, y)); try assumption. intros E. inversion E. lia.
Qed.
Theorem simple_update_disjoint : forall keys gs g p q, simple_update_sequence keys = Ok gs -> oriented keys -> In g gs -> In p g -> In q g -> p <> q -> share_no_site p q.
Proof.
  intros keys gs g p q H Or Hg Hp Hq Ne. destruct (sequence_ok keys gs H) as [-> _].
  destruct (in_groups keys g p Hg Hp) as [k [Hk [Eg [Tp Kp]]]]. rewrite Eg in Hq. apply filter_In in Hq. destruct Hq as [Kq Tq].
  intros s Sp Sq. apply Ne. destruct k as [|[|[|[|[|k]]]]]; [| | | | |lia]; cbn [group_test nth] in Tp, Tq.
  - apply group0_spec in Tp, Tq. destruct Tp as [a ->], Tq as [b ->]. destruct Sp as [<-|[]], Sq as [<-|[]]. reflexivity.
  - apply (horizontal_disjoint 0 keys p q s); try assumption. lia.
  - apply (horizontal_disjoint 1 keys p q s); try assumption. lia.
  - apply (vertical_disjoint 0 keys p q s); try assumption. lia.
  - apply (vertical_disjoint 1 keys p q s); try assumption. lia.
Qed.
