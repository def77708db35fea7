(** A network that has one complete execution without storing messages ends, in the same state, in every execution. *)
From Coq Require Import List Bool Arith Lia.
From Verif Require Import Base.Outcome Model.Lazy Model.Mpi Spec.Runs Proof.LazyFacts.
Import ListNotations.

Lemma update_comm : forall A i j (f g : A -> A) l, i <> j -> update i f (update j g l) = update j g (update i f l).
Proof.
  intros A i j f g l. revert i j. induction l as [|a l IH]; intros [|i] [|j] H; cbn; try reflexivity; [congruence|]. f_equal. apply IH. congruence.
Qed.
Lemma update_twice : forall A i (f g : A -> A) l, update i f (update i g l) = update i (fun x => f (g x)) l.
Proof. intros A i f g l. revert i. induction l as [|a l IH]; intros [|i]; cbn; try reflexivity. f_equal. apply IH. Qed.
Lemma update_ext : forall A i (f g : A -> A) l, (forall x, nth_error l i = Some x -> f x = g x) -> update i f l = update i g l.
Proof. intros A i f g l. revert i. induction l as [|a l IH]; intros [|i] H; cbn; try reflexivity; f_equal; [apply H; reflexivity|apply IH; exact H]. Qed.

Section Network.
  Context {V A : Type}.
  Notation net := (net V A). Notation prog := (prog V A).

  Lemma now_same : forall p (k : prog) l x, nth_error l p = Some x -> nth_error (now p k l) p = Some k.
  Proof. intros p k l x H. unfold now. rewrite nth_update, Nat.eqb_refl, H. reflexivity. Qed.
  Lemma now_other : forall p (k : prog) l j, p <> j -> nth_error (now p k l) j = nth_error l j.
  Proof. intros p k l j H. unfold now. rewrite nth_update. apply Nat.eqb_neq in H. rewrite H. reflexivity. Qed.
  Lemma now_comm : forall p q (a b : prog) l, p <> q -> now p a (now q b l) = now q b (now p a l).
  Proof. intros. apply update_comm. assumption. Qed.

  Lemma messages_put : forall (ps : list prog) p d l q a b, messages (mkNet ps (put p d l q)) a b =
    if Nat.eqb p a && Nat.eqb d b then option_map (fun _ => l) (messages (mkNet ps q) a b) else messages (mkNet ps q) a b.
  Proof.
    intros ps p d l q a b. unfold messages, put. cbn [queues]. rewrite nth_update. destruct (Nat.eqb p a); cbn [andb]; [|reflexivity].
    destruct (nth_error q a) as [row|]; cbn [option_map]; [|destruct (Nat.eqb d b); reflexivity]. rewrite nth_update. destruct (Nat.eqb d b); reflexivity.
  Qed.
  Lemma put_comm : forall p d l p' d' l' (q : list (list (list V))), p <> p' \/ d <> d' -> put p d l (put p' d' l' q) = put p' d' l' (put p d l q).
  Proof.
    intros p d l p' d' l' q H. unfold put. destruct (Nat.eq_dec p p') as [<-|Hp]; [|apply update_comm; exact Hp].
    rewrite !update_twice. apply update_ext. intros x _. apply update_comm. destruct H; [congruence|assumption].
  Qed.
  Lemma put_twice : forall p d l l' (q : list (list (list V))), put p d l (put p d l' q) = put p d l q.
  Proof. intros p d l l' q. unfold put. rewrite update_twice. apply update_ext. intros x _. rewrite update_twice. reflexivity. Qed.

  Definition event := (nat * nat * bool)%type.
  (** the events still to come, in an order in which they can happen one after the other; true: the message is already under way *)
  Inductive completes (final : net) : list event -> net -> Prop :=
  | c_done : completes final [] final
  | c_meet : forall p d v k k' es n, nth_error (procs n) p = Some (Send d v k) -> nth_error (procs n) d = Some (Receive p k') -> messages n p d = Some [] ->
      completes final es (mkNet (now p k (now d (k' v) (procs n))) (queues n)) -> completes final ((p, d, false) :: es) n
  | c_take : forall p d v k' q es n, nth_error (procs n) d = Some (Receive p k') -> messages n p d = Some (v :: q) ->
      completes final es (mkNet (now d (k' v) (procs n)) (put p d q (queues n))) -> completes final ((p, d, true) :: es) n.

  Definition weight (es : list event) : nat := fold_right (fun (e : event) (n : nat) => (if snd e then 1 else 2) + n) 0 es.
  Lemma weight_cons : forall e es, weight (e :: es) = (if snd e then 1 else 2) + weight es.
  Proof. reflexivity. Qed.
  Ltac lighter := rewrite ?weight_cons; cbn [snd]; lia.
  Definition all_stopped (n : net) : Prop := forall p x, nth_error (procs n) p = Some x -> exists r, x = Stop r.

  Lemma stopped_stuck : forall n n', all_stopped n -> ~ transition n n'.
  Proof. intros n n' H T. destruct T as [p d v k q H1 _|p s k v q H1 _|p d v k k' H1 _ _]; apply H in H1; destruct H1 as [r H1]; discriminate. Qed.

  Lemma completes_step : forall final es n n', all_stopped final -> completes final es n -> transition n n' ->
    exists es', completes final es' n' /\ weight es' < weight es.
  Proof.
    intros final es n n' Hf C. revert n'. induction C as [|p d v k k' es n H1 H2 H3 C IH|p d v k' q es n H1 H2 C IH]; intros n' T.
    - exfalso. apply (stopped_stuck final n' Hf T).
    - (* the next event has not begun: p waits to send to d, d waits for p *)
      assert (pd : p <> d) by (intros ->; congruence).
      set (n1 := mkNet (now p k (now d (k' v) (procs n))) (queues n)) in *.
      assert (O : forall a, a <> p -> a <> d -> nth_error (procs n1) a = nth_error (procs n) a) by (intros a Ha Hd; cbn; rewrite !now_other by congruence; reflexivity).
      assert (Om : forall a b, messages n1 a b = messages n a b) by reflexivity.
      destruct T as [a b w ka qa T1 T2|a s ka w qa T1 T2|a b w ka kb T1 T2 T3].
      + destruct (Nat.eq_dec a p) as [->|Hap].
        * rewrite H1 in T1. injection T1 as <- <- <-. rewrite H3 in T2. injection T2 as <-. exists ((p, d, true) :: es). split; [|lighter].
          apply (c_take final p d v k' []); cbn [procs queues].
          -- rewrite now_other by exact pd. exact H2.
          -- cbn [app]. rewrite messages_put, !Nat.eqb_refl. cbn. unfold messages in H3 |- *. cbn [queues]. rewrite H3. reflexivity.
          -- cbn [app]. rewrite put_twice, now_comm by congruence. replace (put p d [] (queues n)) with (queues n); [exact C|].
             unfold put. unfold messages in H3. destruct (nth_error (queues n) p) as [row|] eqn:Er; [|discriminate].
             assert (Uid : forall B (l : list B) i x, nth_error l i = Some x -> update i (fun _ => x) l = l).
             { clear. intros B l. induction l as [|y l IH]; intros [|i] x H; cbn in *; try discriminate; [congruence|]. f_equal. apply IH. exact H. }
             rewrite (update_ext _ p _ (fun _ => row)); [symmetry; apply Uid; exact Er|]. intros x Hx. rewrite Hx in Er. injection Er as ->. apply Uid. exact H3.
        * assert (Had : a <> d) by (intros ->; congruence).
          destruct (IH (mkNet (now a ka (procs n1)) (put a b (qa ++ [w]) (queues n1)))) as [es' [C' W]].
          { apply (t_send n1 a b w ka qa); [rewrite O by assumption; exact T1|exact T2]. }
          exists ((p, d, false) :: es'). split; [|lighter]. apply (c_meet final p d v k k'); cbn [procs queues].
          -- rewrite now_other by exact Hap. exact H1.
          -- rewrite now_other by exact Had. exact H2.
          -- rewrite messages_put. replace (Nat.eqb a p) with false by (symmetry; apply Nat.eqb_neq; exact Hap). exact H3.
          -- cbn [procs queues] in C'. unfold n1 in C'. cbn [procs queues] in C'. rewrite (now_comm a p), (now_comm a d) in C' by congruence. exact C'.
      + destruct (Nat.eq_dec a d) as [->|Had].
        { rewrite H2 in T1. injection T1 as <- <-. congruence. }
        assert (Hap : a <> p) by (intros ->; congruence).
        destruct (IH (mkNet (now a (ka w) (procs n1)) (put s a qa (queues n1)))) as [es' [C' W]].
        { apply (t_take n1 a s ka w qa); [rewrite O by assumption; exact T1|exact T2]. }
        exists ((p, d, false) :: es'). split; [|lighter]. apply (c_meet final p d v k k'); cbn [procs queues].
        -- rewrite now_other by exact Hap. exact H1.
        -- rewrite now_other by exact Had. exact H2.
        -- rewrite messages_put. replace (Nat.eqb a d) with false by (symmetry; apply Nat.eqb_neq; exact Had). rewrite andb_false_r. exact H3.
        -- unfold n1 in C'. cbn [procs queues] in C'. rewrite (now_comm a p), (now_comm a d) in C' by congruence. exact C'.
      + destruct (Nat.eq_dec a p) as [->|Hap].
        { rewrite H1 in T1. injection T1 as <- <- <-. rewrite H2 in T2. injection T2 as <-. exists es. split; [exact C|lighter]. }
        assert (Had : a <> d) by (intros ->; congruence).
        assert (Hbd : b <> d) by (intros ->; congruence).
        assert (Hbp : b <> p) by (intros ->; congruence).
        assert (Hab : a <> b) by (intros ->; congruence).
        destruct (IH (mkNet (now a ka (now b (kb w) (procs n1))) (queues n1))) as [es' [C' W]].
        { apply (t_meet n1 a b w ka kb); [rewrite O by assumption; exact T1|rewrite O by assumption; exact T2|exact T3]. }
        exists ((p, d, false) :: es'). split; [|lighter]. apply (c_meet final p d v k k'); cbn [procs queues].
        -- rewrite !now_other by congruence. exact H1.
        -- rewrite !now_other by congruence. exact H2.
        -- exact H3.
        -- unfold n1 in C'. cbn [procs queues] in C'.
           rewrite (now_comm b p), (now_comm b d), (now_comm a p), (now_comm a d) in C' by congruence. exact C'.
    - (* the message is under way *)
      set (n1 := mkNet (now d (k' v) (procs n)) (put p d q (queues n))) in *.
      assert (O : forall a, a <> d -> nth_error (procs n1) a = nth_error (procs n) a) by (intros a Hd; cbn; rewrite !now_other by congruence; reflexivity).
      assert (Om : forall a b, a <> p \/ b <> d -> messages n1 a b = messages n a b).
      { intros a b H. unfold n1. rewrite messages_put. replace (Nat.eqb p a && Nat.eqb d b) with false; [reflexivity|]. symmetry. apply andb_false_iff.
        destruct H as [H|H]; [left|right]; apply Nat.eqb_neq; congruence. }
      assert (Opd : messages n1 p d = Some q).
      { unfold n1. rewrite messages_put, !Nat.eqb_refl. cbn [andb]. unfold messages in H2 |- *. cbn [queues]. rewrite H2. reflexivity. }
      destruct T as [a b w ka qa T1 T2|a s ka w qa T1 T2|a b w ka kb T1 T2 T3].
      + assert (Had : a <> d) by (intros ->; congruence).
        assert (Q : (a = p /\ b = d) \/ (a <> p \/ b <> d)) by (destruct (Nat.eq_dec a p); destruct (Nat.eq_dec b d); auto).
        destruct Q as [[-> ->]|Q].
        * rewrite H2 in T2. injection T2 as <-.
          destruct (IH (mkNet (now p ka (procs n1)) (put p d (q ++ [w]) (queues n1)))) as [es' [C' W]].
          { apply (t_send n1 p d w ka q); [rewrite O by assumption; exact T1|exact Opd]. }
          exists ((p, d, true) :: es'). split; [|lighter]. apply (c_take final p d v k' (q ++ [w])); cbn [procs queues].
          -- rewrite now_other by exact Had. exact H1.
          -- rewrite messages_put, !Nat.eqb_refl. cbn [andb]. unfold messages in H2 |- *. cbn [queues]. rewrite H2. reflexivity.
          -- unfold n1 in C'. cbn [procs queues] in C'. rewrite put_twice in *. rewrite (now_comm p d) in C' by congruence. exact C'.
        * destruct (IH (mkNet (now a ka (procs n1)) (put a b (qa ++ [w]) (queues n1)))) as [es' [C' W]].
          { apply (t_send n1 a b w ka qa); [rewrite O by assumption; exact T1|rewrite Om by exact Q; exact T2]. }
          exists ((p, d, true) :: es'). split; [|lighter]. apply (c_take final p d v k' q); cbn [procs queues].
          -- rewrite now_other by exact Had. exact H1.
          -- rewrite messages_put. replace (Nat.eqb a p && Nat.eqb b d) with false; [exact H2|]. symmetry. apply andb_false_iff. destruct Q as [Q|Q]; [left|right]; apply Nat.eqb_neq; exact Q.
          -- unfold n1 in C'. cbn [procs queues] in C'. rewrite (now_comm a d) in C' by congruence. rewrite (put_comm a b) in C' by (destruct Q; [left|right]; congruence). exact C'.
      + destruct (Nat.eq_dec a d) as [->|Had].
        { rewrite H1 in T1. injection T1 as <- <-. rewrite H2 in T2. injection T2 as <- <-. exists es. split; [exact C|lighter]. }
        destruct (IH (mkNet (now a (ka w) (procs n1)) (put s a qa (queues n1)))) as [es' [C' W]].
        { apply (t_take n1 a s ka w qa); [rewrite O by assumption; exact T1|rewrite Om by (right; exact Had); exact T2]. }
        exists ((p, d, true) :: es'). split; [|lighter]. apply (c_take final p d v k' q); cbn [procs queues].
        -- rewrite now_other by exact Had. exact H1.
        -- rewrite messages_put. replace (Nat.eqb a d) with false by (symmetry; apply Nat.eqb_neq; exact Had). rewrite andb_false_r. exact H2.
        -- unfold n1 in C'. cbn [procs queues] in C'. rewrite (now_comm a d) in C' by congruence. rewrite (put_comm s a) in C' by (right; congruence). exact C'.
      + assert (Had : a <> d) by (intros ->; congruence).
        assert (Hbd : b <> d). { intros ->. rewrite H1 in T2. injection T2 as <- <-. congruence. }
        assert (Hab : a <> b) by (intros ->; congruence).
        destruct (IH (mkNet (now a ka (now b (kb w) (procs n1))) (queues n1))) as [es' [C' W]].
        { apply (t_meet n1 a b w ka kb); [rewrite O by assumption; exact T1|rewrite O by assumption; exact T2|rewrite Om by (right; exact Hbd); exact T3]. }
        exists ((p, d, true) :: es'). split; [|lighter]. apply (c_take final p d v k' q); cbn [procs queues].
        -- rewrite !now_other by congruence. exact H1.
        -- exact H2.
        -- unfold n1 in C'. cbn [procs queues] in C'. rewrite (now_comm b d), (now_comm a d) in C' by congruence. exact C'.
  Qed.

  Lemma completes_progress : forall final es n, completes final es n -> n = final \/ exists n', prompt n n'.
  Proof.
    intros final es n C. destruct C as [|p d v k k' es n H1 H2 H3 C|p d v k' q es n H1 H2 C]; [left; reflexivity| |].
    - right. eexists. eapply p_meet; eassumption.
    - right. eexists. eapply p_take; eassumption.
  Qed.

  Theorem completes_always : forall final es n, all_stopped final -> completes final es n -> always_reaches n final.
  Proof.
    intros final es n Hf C. exists (weight es).
    assert (Q : forall l m, execution n l m -> exists es', completes final es' m /\ weight es' + l <= weight es).
    { intros l m E. induction E as [|l m m' E IH T]; [exists es; split; [exact C|lia]|]. destruct IH as [es' [C' W]].
      destruct (completes_step final es' m m' Hf C' T) as [es'' [C'' W'']]. exists es''. split; [exact C''|lia]. }
    intros l m E. destruct (Q l m E) as [es' [C' W]]. split; [lia|]. exact (completes_progress _ _ _ C').
  Qed.

  (** ** Executions in which every message is handed over at once *)
  Inductive meets : net -> net -> Prop :=
  | m_refl : forall n, meets n n
  | m_step : forall n p d v k k' m, nth_error (procs n) p = Some (Send d v k) -> nth_error (procs n) d = Some (Receive p k') -> messages n p d = Some [] ->
      meets (mkNet (now p k (now d (k' v) (procs n))) (queues n)) m -> meets n m.
  Lemma meets_trans : forall a b c, meets a b -> meets b c -> meets a c.
  Proof. intros a b c H K. induction H; [exact K|]. eapply m_step; eauto. Qed.
  Lemma meets_completes : forall n final, meets n final -> exists es, completes final es n.
  Proof. intros n final H. induction H as [|n p d v k k' m H1 H2 H3 H IH]; [exists []; constructor|]. destruct IH as [es C]. exists ((p, d, false) :: es). eapply c_meet; eauto. Qed.
  Theorem meets_always : forall n final, all_stopped final -> meets n final -> always_reaches n final.
  Proof. intros n final Hf H. destruct (meets_completes n final H) as [es C]. exact (completes_always final es n Hf C). Qed.

  (** programs given by a function of the rank *)
  Definition state (size : nat) (P : nat -> prog) : net := mkNet (map P (seq 0 size)) (repeat (repeat [] size) size).
  Lemma state_ext : forall size P Q, (forall r, r < size -> P r = Q r) -> state size P = state size Q.
  Proof. intros size P Q H. unfold state. f_equal. apply map_ext_in. intros r Hr. apply H. apply in_seq in Hr. lia. Qed.
  Lemma state_proc : forall size P r, r < size -> nth_error (procs (state size P)) r = Some (P r).
  Proof.
    intros size P r H. cbn. rewrite nth_error_map. rewrite (nth_error_nth' _ 0) by (rewrite seq_length; exact H). rewrite seq_nth by exact H. reflexivity.
  Qed.
  Lemma state_messages : forall size P a b, a < size -> b < size -> messages (state size P) a b = Some [].
  Proof. intros size P a b Ha Hb. unfold messages. cbn. rewrite (nth_error_repeat _ Ha). apply nth_error_repeat. exact Hb. Qed.
  Lemma now_state : forall size (P : nat -> prog) r k, now r k (map P (seq 0 size)) = map (fun i => if Nat.eqb i r then k else P i) (seq 0 size).
  Proof.
    intros size P r k. unfold now. assert (Q : forall n s, update r (fun _ => k) (map P (seq s n)) = map (fun i => if Nat.eqb i (s + r) then k else P i) (seq s n)).
    { intros n. revert r. induction n as [|n IH]; intros r s; [destruct r; reflexivity|]. destruct r as [|r]; cbn [seq map update].
      - rewrite Nat.add_0_r, Nat.eqb_refl. f_equal. apply map_ext_in. intros i Hi. apply in_seq in Hi. replace (Nat.eqb i s) with false by (symmetry; apply Nat.eqb_neq; lia). reflexivity.
      - replace (Nat.eqb s (s + S r)) with false by (symmetry; apply Nat.eqb_neq; lia). f_equal. rewrite IH. apply map_ext. intros i. rewrite Nat.add_succ_comm. reflexivity. }
    apply (Q size 0).
  Qed.
  (** one handing over between two ranks *)
  Lemma meet_state : forall size (P Q : nat -> prog) p d v k k', p < size -> d < size -> P p = Send d v k -> P d = Receive p k' ->
    (forall r, r < size -> Q r = if Nat.eqb r p then k else if Nat.eqb r d then k' v else P r) -> meets (state size P) (state size Q).
  Proof.
    intros size P Q p d v k k' Hp Hd Ep Ed HQ. assert (pd : p <> d) by (intros ->; congruence).
    eapply m_step; [rewrite state_proc by exact Hp; rewrite Ep; reflexivity|rewrite state_proc by exact Hd; rewrite Ed; reflexivity|apply state_messages; assumption|].
    cbn [procs queues state]. rewrite !now_state.
    replace (mkNet _ _) with (state size Q); [apply m_refl|]. unfold state. f_equal. apply map_ext_in. intros r Hr. apply in_seq in Hr. apply HQ. lia.
  Qed.
End Network.
