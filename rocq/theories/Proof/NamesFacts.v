(** Interned names: the table invariant. *)
From Coq Require Import List Arith Lia.
From Verif Require Import Base.Outcome Base.SMap Model.Names.
Import ListNotations.

Record good (ds : dataset) : Prop := {
  g_total : total_index ds = length (id_to_name ds);
  g_nodup : NoDup (id_to_name ds);
  g_sorted : msorted (name_to_id ds);
  g_link : forall s i, mfind s (name_to_id ds) = Some i <-> nth_error (id_to_name ds) i = Some s }.

Lemma fresh_good : good fresh_dataset.
Proof.
  constructor; cbn [total_index id_to_name name_to_id fresh_dataset]; auto.
  - repeat constructor. intros [].
  - repeat constructor.
  - intros s i. cbn [mfind]. destruct (eqb s []) eqn:E.
    + apply eqb_eq in E. subst. split; intro H; [injection H as <-; reflexivity|]. destruct i as [|[|i]]; try discriminate. reflexivity.
    + split; intro H; [discriminate|]. destruct i as [|[|i]]; try discriminate. injection H as <-. cbn in E. discriminate.
Qed.

Lemma nth_error_snoc : forall A (l : list A) x i y, nth_error (l ++ [x]) i = Some y <-> nth_error l i = Some y \/ (i = length l /\ y = x).
Proof.
  intros A l x i y. destruct (Nat.lt_ge_cases i (length l)) as [H|H].
  - rewrite nth_error_app1 by exact H. split; [auto|]. intros [H1|[H1 _]]; [exact H1|lia].
  - rewrite nth_error_app2 by exact H. destruct (nth_error l i) eqn:E; [apply nth_error_None in H; congruence|]. destruct (i - length l) as [|k] eqn:Ek; cbn.
    + split; [intro Hy; injection Hy as <-; right; split; [lia|reflexivity]|]. intros [H1|[_ ->]]; [discriminate|reflexivity].
    + rewrite (proj2 (nth_error_None [] k)) by (simpl; lia). split; [discriminate|]. intros [H1|[H1 _]]; [discriminate|lia].
Qed.

Lemma new_name_good : forall ds s, good ds -> good (fst (new_name ds s)).
Proof.
  intros ds s G. unfold new_name. destruct (mfind s (name_to_id ds)) as [i|] eqn:E; [exact G|]. cbn [fst].
  assert (Hs : ~ In s (id_to_name ds)).
  { intro H. apply In_nth_error in H as [i Hi]. apply (g_link _ G) in Hi. congruence. }
  constructor; cbn [total_index id_to_name name_to_id].
  - rewrite app_length, (g_total _ G). simpl. lia.
  - rewrite <- (rev_involutive (_ ++ _)). apply NoDup_rev. rewrite rev_app_distr. simpl. constructor; [rewrite <- in_rev; exact Hs|apply NoDup_rev, G].
  - apply mset_sorted, G.
  - intros t i. rewrite nth_error_snoc. destruct (eqb t s) eqn:Et.
    + apply eqb_eq in Et. subst t. rewrite mfind_mset_same. rewrite (g_total _ G). split.
      * intro H. injection H as <-. now right.
      * intros [H|[-> _]]; [|reflexivity]. exfalso. apply Hs. eapply nth_error_In; eauto.
    + apply eqb_false in Et. rewrite mfind_mset_other by congruence. rewrite (g_link _ G). split; [auto|]. intros [H|[_ H]]; [exact H|contradiction].
Qed.

Lemma new_name_text : forall ds s, good ds -> nth_error (id_to_name (fst (new_name ds s))) (snd (new_name ds s)) = Some s.
Proof.
  intros ds s G. unfold new_name. destruct (mfind s (name_to_id ds)) as [i|] eqn:E; cbn [fst snd id_to_name].
  - now apply (g_link _ G).
  - apply nth_error_snoc. right. split; [apply G|reflexivity].
Qed.

Lemma new_name_keeps : forall ds s i t, nth_error (id_to_name ds) i = Some t -> nth_error (id_to_name (fst (new_name ds s))) i = Some t.
Proof.
  intros ds s i t H. unfold new_name. destruct (mfind s (name_to_id ds)); cbn [fst id_to_name]; [exact H|]. apply nth_error_snoc. now left.
Qed.

Lemma new_names_good : forall h ds, good ds -> good (fst (new_names ds h)).
Proof.
  induction h as [|s h IH]; intros ds G; [exact G|]. cbn [new_names]. pose proof (new_name_good ds s G) as G1.
  destruct (new_name ds s) as [ds1 i]. specialize (IH ds1 G1). destruct (new_names ds1 h) as [ds2 is]. exact IH.
Qed.
Lemma new_names_keeps : forall h ds i t, nth_error (id_to_name ds) i = Some t -> nth_error (id_to_name (fst (new_names ds h))) i = Some t.
Proof.
  induction h as [|s h IH]; intros ds i t H; [exact H|]. cbn [new_names]. pose proof (new_name_keeps ds s i t H) as H1.
  destruct (new_name ds s) as [ds1 j]. specialize (IH ds1 i t H1). destruct (new_names ds1 h) as [ds2 is]. exact IH.
Qed.
Lemma new_names_text : forall h ds, good ds -> Forall2 (fun s i => nth_error (id_to_name (fst (new_names ds h))) i = Some s) h (snd (new_names ds h)).
Proof.
  induction h as [|s h IH]; intros ds G; [constructor|]. cbn [new_names]. pose proof (new_name_good ds s G) as G1. pose proof (new_name_text ds s G) as H1.
  destruct (new_name ds s) as [ds1 j]. cbn [fst snd] in G1, H1. pose proof (new_names_keeps h ds1 j s H1) as H2. specialize (IH ds1 G1).
  destruct (new_names ds1 h) as [ds2 is]. cbn [fst snd] in *. constructor; assumption.
Qed.

Lemma good_unique : forall ds i j s, good ds -> nth_error (id_to_name ds) i = Some s -> nth_error (id_to_name ds) j = Some s -> i = j.
Proof. intros ds i j s G H1 H2. apply (g_link _ G) in H1, H2. congruence. Qed.

Lemma good_intern : forall ds h, good ds ->
  forall i s, nth_error h i = Some s ->
  exists a, nth_error (snd (new_names ds h)) i = Some a /\ name_text (fst (new_names ds h)) a = Ok s /\
    forall j t b, nth_error h j = Some t -> nth_error (snd (new_names ds h)) j = Some b -> (a = b <-> s = t).
Proof.
  intros ds h G i s Hi. pose proof (new_names_text h ds G) as F. pose proof (new_names_good h ds G) as GF.
  assert (P : forall i s, nth_error h i = Some s -> exists a, nth_error (snd (new_names ds h)) i = Some a /\ nth_error (id_to_name (fst (new_names ds h))) a = Some s).
  { clear i s Hi GF. revert F. generalize (snd (new_names ds h)) (id_to_name (fst (new_names ds h))). intros l tb F. induction F as [|s0 a0 h0 is0 H0 F IH]; intros i s Hi; destruct i; try discriminate; cbn [nth_error] in Hi |- *; [injection Hi as <-; eauto|eauto]. }
  destruct (P i s Hi) as [a [Ha Ht]]. exists a. split; [exact Ha|]. split; [unfold name_text; now rewrite Ht|].
  intros j t b Hj Hb. destruct (P j t Hj) as [b' [Hb' Ht']]. rewrite Hb in Hb'. injection Hb' as <-. split; [intros <-; congruence|].
  intros <-. eapply good_unique; eauto.
Qed.

(** loading a table written by a good process *)
Lemma load_find : forall table n, n <= length table -> NoDup table -> forall s i,
  mfind s (fold_left (fun m i => mset (nth i table []) i m) (seq 0 n) []) = Some i <-> i < n /\ nth_error table i = Some s.
Proof.
  intros table n. induction n as [|n IH]; intros Hn Hd s i.
  - cbn. split; [discriminate|lia].
  - rewrite seq_S, fold_left_app. cbn [fold_left plus]. assert (Hl : n < length table) by lia.
    pose proof (nth_error_nth' table [] Hl) as Hnth. destruct (eqb s (nth n table [])) eqn:E.
    + apply eqb_eq in E. subst s. rewrite mfind_mset_same. split.
      * intro H. injection H as <-. auto.
      * intros [H1 H2]. f_equal. rewrite NoDup_nth_error in Hd. apply Hd; [lia|congruence].
    + apply eqb_false in E. rewrite mfind_mset_other by congruence. rewrite IH by (lia || assumption). split; [intuition lia|].
      intros [H1 H2]. split; [|exact H2]. destruct (Nat.eq_dec i n) as [->|]; [|lia]. exfalso. apply E. congruence.
Qed.
Lemma load_sorted : forall table l m, msorted m -> msorted (fold_left (fun m i => mset (nth i table ([] : text)) i m) l m).
Proof. intros table l. induction l as [|i l IH]; intros m H; [exact H|]. apply IH. now apply mset_sorted. Qed.

Lemma load_dump : forall ds, good ds -> load_table (dump_table ds) = ds.
Proof.
  intros [n m t] G. unfold load_table, dump_table. cbn [id_to_name]. destruct G as [G1 G2 G3 G4]. cbn [total_index id_to_name name_to_id] in *.
  f_equal; [now symmetry|]. apply msorted_ext; [apply load_sorted; constructor|exact G3|].
  intros s. destruct (mfind s m) as [i|] eqn:E.
  - apply load_find; auto. apply G4 in E. split; [|exact E]. apply nth_error_Some. congruence.
  - match goal with |- ?x = _ => destruct x as [i|] eqn:E2; [|reflexivity] end. apply load_find in E2 as [_ E2]; auto. apply G4 in E2. congruence.
Qed.

Lemma intern_fresh : forall h i s, nth_error h i = Some s ->
  exists a, nth_error (snd (new_names fresh_dataset h)) i = Some a /\ name_text (fst (new_names fresh_dataset h)) a = Ok s /\
    forall j t b, nth_error h j = Some t -> nth_error (snd (new_names fresh_dataset h)) j = Some b -> (a = b <-> s = t).
Proof. intros. apply good_intern; auto. apply fresh_good. Qed.
Lemma load_dump_fresh : forall h, let ds := fst (new_names fresh_dataset h) in load_table (dump_table ds) = ds.
Proof. intros h ds. apply load_dump, new_names_good, fresh_good. Qed.
Lemma text_stable : forall ds h a s, name_text ds a = Ok s -> name_text (fst (new_names ds h)) a = Ok s.
Proof.
  intros ds h a s. unfold name_text, get_or_ub. destruct (nth_error (id_to_name ds) a) as [t|] eqn:E; [|discriminate].
  intro H. rewrite (new_names_keeps h ds a t E). exact H.
Qed.
Lemma name_order : forall a b c, (name_eq a b = true <-> a = b) /\ name_less a a = false /\
  (name_less a b = true -> name_less b c = true -> name_less a c = true) /\ (a = b \/ name_less a b = true \/ name_less b a = true).
Proof.
  intros a b c. unfold name_eq, name_less. rewrite Nat.eqb_eq, Nat.ltb_irrefl, !Nat.ltb_lt. intuition lia.
Qed.
Lemma load_extends : forall h1 h2 a s, let other := fst (new_names (fst (new_names fresh_dataset h1)) h2) in
  name_text (fst (new_names fresh_dataset h1)) a = Ok s -> name_text (load_table (dump_table other)) a = Ok s.
Proof.
  intros h1 h2 a s other H. unfold other. rewrite load_dump by (apply new_names_good, new_names_good, fresh_good). now apply text_stable.
Qed.
