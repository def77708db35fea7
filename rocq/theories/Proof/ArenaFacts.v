From Coq Require Import List ZArith Lia Permutation.
From Verif Require Import Base.Outcome Model.Arena Spec.Memory.
Import ListNotations.
Open Scope Z_scope.

Lemma word_pos : 0 < word. Proof. reflexivity. Qed.
Lemma wrap_small : forall x, 0 <= x < word -> wrap x = x.
Proof. intros. now apply Z.mod_small. Qed.
Lemma doubled_spec : forall n, 1 <= n < word -> 1 <= doubled n < word /\ (2 * n <= doubled n \/ doubled n = word - 1).
Proof.
  intros n H. unfold doubled. destruct (Z.ltb_spec ((word - 1) / 2) n) as [L|L].
  - split; [unfold word in *; lia|auto].
  - pose proof (Z.mul_div_le (word - 1) 2 ltac:(lia)). split; lia.
Qed.
Lemma increase_ok : forall fuel n m, 1 <= n < word -> m < word -> (m <= n * 2 ^ Z.of_nat fuel) ->
  exists k, increase_to fuel n m = Ok k /\ m <= k /\ 1 <= k < word.
Proof.
  induction fuel as [|f IH]; intros n m Hn Hm Hf; cbn [increase_to]; destruct (Z.ltb_spec n m) as [L|L]; try (exists n; split; [reflexivity|lia]).
  - change (2 ^ Z.of_nat 0) with 1 in Hf. lia.
  - destruct (doubled_spec n Hn) as [D1 D2]. apply IH; auto. rewrite Nat2Z.inj_succ, Z.pow_succ_r in Hf by lia. set (P := 2 ^ Z.of_nat f) in *.
    assert (0 < P) by (apply Z.pow_pos_nonneg; lia). destruct D2 as [D2|D2]; nia.
Qed.
Lemma increase_word : forall n m, 1 <= n < word -> m < word -> exists k, increase_to 64 n m = Ok k /\ m <= k /\ 1 <= k < word.
Proof. intros n m Hn Hm. apply increase_ok; auto. change (2 ^ Z.of_nat 64) with word. nia. Qed.


Lemma land_mask : forall k x, 0 <= k <= 63 -> 0 <= x < word -> Z.land x (wrap (Z.lnot (2 ^ k - 1))) = x - x mod 2 ^ k.
Proof.
  intros k x Hk Hx. assert (E : Z.land x (wrap (Z.lnot (2 ^ k - 1))) = Z.ldiff x (Z.ones k)).
  { apply Z.bits_inj'. intros n Hn. rewrite Z.land_spec, Z.ldiff_spec. unfold wrap, word. destruct (Z.lt_ge_cases n 64) as [L|L].
    - rewrite Z.mod_pow2_bits_low by lia. rewrite Z.lnot_spec by lia. now rewrite Z.ones_equiv, <- Z.sub_1_r.
    - assert (T : Z.testbit x n = false).
      { destruct (Z.eq_dec x 0) as [->|Nx]; [apply Z.bits_0|]. apply Z.bits_above_log2; [lia|]. apply Z.log2_lt_pow2; [lia|]. apply Z.lt_le_trans with word; [lia|]. unfold word. apply Z.pow_le_mono_r; lia. }
      now rewrite T. }
  rewrite E. rewrite Z.ldiff_ones_r by lia. rewrite Z.shiftr_div_pow2, Z.shiftl_mul_pow2 by lia. pose proof (Z.div_mod x (2 ^ k) ltac:(apply Z.pow_nonzero; lia)). lia.
Qed.

Lemma ordinary_pow : forall bytes al, ordinary bytes al -> exists k, 0 <= k <= 4 /\ al = 2 ^ k.
Proof.
  intros b al [_ H]. cbn in H. destruct H as [<-|[<-|[<-|[<-|[<-|[]]]]]]; [exists 0|exists 1|exists 2|exists 3|exists 4]; split; (lia || reflexivity).
Qed.

Lemma remaining_spec : forall a k, 0 <= k <= 4 -> 0 <= current a -> 0 <= current_size a < word -> current a + current_size a <= word ->
  exists left al, remaining a (2 ^ k) = (left, al) /\
    (0 < left -> 0 <= al /\ left = current_size a - al /\ (current a + al) mod 2 ^ k = 0).
Proof.
  intros a k Hk H0 H1 H2. unfold remaining. assert (HP : 1 <= 2 ^ k <= 16) by (split; [apply (Z.pow_le_mono_r 2 0 k); lia|apply (Z.pow_le_mono_r 2 k 4); lia]).
  rewrite (wrap_small (2 ^ k - 1)) by (unfold word; lia).
  set (x := wrap (current a + (2 ^ k - 1))). assert (Hx : 0 <= x < word) by (apply Z.mod_pos_bound; reflexivity). rewrite land_mask by (lia || exact Hx).
  set (al := wrap (x - x mod 2 ^ k - current a)). assert (Hal : 0 <= al < word) by (apply Z.mod_pos_bound; reflexivity).
  do 2 eexists. split; [reflexivity|]. destruct (Z.leb_spec (current_size a) al) as [L|L]; [let H := fresh in intro H; discriminate H|]. intros _. split; [lia|]. split; [apply wrap_small; lia|].
  assert (HM : (x - x mod 2 ^ k) mod 2 ^ k = 0).
  { rewrite Zminus_mod_idemp_r. rewrite Z.sub_diag. apply Z.mod_0_l. lia. }
  assert (HW : word mod 2 ^ k = 0).
  { replace word with (2 ^ (64 - k) * 2 ^ k) by (unfold word; rewrite <- Z.pow_add_r by lia; f_equal; lia). apply Z.mod_mul. lia. }
  assert (EA : exists q, current a + al = (x - x mod 2 ^ k) + q * word).
  { exists (- ((x - x mod 2 ^ k - current a) / word)). unfold al, wrap. rewrite Z.mod_eq by (unfold word; lia). lia. }
  destruct EA as [q ->]. rewrite Z.add_mod, Z.mul_mod, HW, HM by lia. rewrite Z.mul_0_r. reflexivity.
Qed.

Record inv (s : session) : Prop := {
  i_next : 1 <= next_size (ar s) < word;
  i_cur : 0 <= current (ar s) /\ 0 <= current_size (ar s) < word /\ current (ar s) + current_size (ar s) <= word;
  i_init : 0 <= initial (ar s) /\ 0 <= initial_size (ar s) < word /\ initial (ar s) + initial_size (ar s) <= word;
  (** the free part is inside an owned buffer, and apart from everything handed out *)
  i_free : exists b, In b (owned (ar s)) /\ inside (current (ar s)) (current_size (ar s)) (fst b) (snd b);
  i_apart : Forall (fun l => apart (current (ar s)) (current_size (ar s)) (fst (fst l)) (snd (fst l))) (live s);
  i_live : Forall (fun l => 0 < snd (fst l) /\ (fst (fst l)) mod (snd l) = 0 /\ exists b, In b (owned (ar s)) /\ inside (fst (fst l)) (snd (fst l)) (fst b) (snd b)) (live s);
  i_pair : ForallOrdPairs (fun l m => apart (fst (fst l)) (snd (fst l)) (fst (fst m)) (snd (fst m))) (live s);
  i_back : obtained s = held (ar s) ++ returned s \/ Permutation (obtained s) (held (ar s) ++ returned s) }.

Lemma apart_sub : forall p n q m p' n', apart p n q m -> inside p' n' p n -> apart p' n' q m.
Proof. intros p n q m p' n' H [I1 I2] x [X1 X2]. apply (H x). lia. Qed.
Lemma apart_sub_r : forall p n q m q' m', apart p n q m -> inside q' m' q m -> apart p n q' m'.
Proof. intros p n q m p' n' H [I1 I2] x [X1 X2]. apply (H x). lia. Qed.

Lemma serve_inv : forall s r, inv s -> honest s [r] -> exists s', serve s r = Ok s' /\ inv s'.
Proof.
  intros s r V [H _]. destruct r as [bytes al ans|].
  - destruct H as [O H]. destruct (ordinary_pow bytes al O) as [k [Hk ->]]. destruct O as [[B1 B2] Oal].
    destruct V as [V1 [V2 [V3 V4]] V5 V6 V7 V8 V9 V10].
    destruct (remaining_spec (ar s) k Hk V2 V3 V4) as [left [pad [ER HR]]].
    cbn [serve]. unfold allocate. rewrite ER in *. cbn [fst] in H. destruct (Z.ltb_spec left bytes) as [L|L].
    + destruct (increase_word (next_size (ar s)) bytes V1 ltac:(lia)) as [n [EN [N1 N2]]]. rewrite EN. cbn [bind]. destruct ans as [p|].
      * specialize (H p n eq_refl EN L) as [F1 [F2 [F3 F4]]]. unfold take. cbn [bind held current current_size next_size initial initial_size fst snd].
        eexists. split; [reflexivity|]. destruct (doubled_spec n N2) as [D1 _]. rewrite wrap_small by lia. rewrite Z.add_0_r.
        set (NB := (p, n)) in *.
        assert (AP : Forall (fun l => apart p n (fst (fst l)) (snd (fst l))) (live s)).
        { apply Forall_forall. intros l Hl. rewrite Forall_forall in V8. destruct (V8 l Hl) as [_ [_ [b [Hb Hi]]]]. rewrite Forall_forall in F4. eapply apart_sub_r; [exact (F4 b Hb)|exact Hi]. }
        constructor; cbn [ar live obtained returned held current current_size next_size initial initial_size app]; auto.
        -- lia.
        -- exists NB. split; [right; now left|]. unfold NB, inside. cbn [fst snd]. lia.
        -- constructor; cbn [fst snd].
           ++ intros x [X1 X2]. lia.
           ++ eapply Forall_impl; [|exact AP]. intros l Hl. eapply apart_sub; [exact Hl|]. unfold inside. lia.
        -- constructor; cbn [fst snd].
           ++ split; [lia|]. split; [|exists NB; split; [right; now left|unfold NB, inside; cbn [fst snd]; lia]].
              destruct Oal as [<-|[<-|[<-|[<-|[<-|[]]]]]]; (apply Z.mod_divide; [lia|]; apply Z.divide_trans with 16; [|apply Z.mod_divide; [lia|exact F1]]).
              ** exists 16; reflexivity.
              ** exists 8; reflexivity.
              ** exists 4; reflexivity.
              ** exists 2; reflexivity.
              ** exists 1; reflexivity.
           ++ eapply Forall_impl; [|exact V8]. intros l [Q1 [Q2 [b [Q3 Q4]]]]. split; [exact Q1|]. split; [exact Q2|]. exists b. split; [|exact Q4]. destruct Q3 as [Q3|Q3]; [left; exact Q3|right; right; exact Q3].
        -- constructor; [|exact V9]. cbn [fst snd]. eapply Forall_impl; [|exact AP]. intros l Hl. eapply apart_sub; [exact Hl|]. unfold inside. lia.
        -- right. cbn [length]. replace (S (length (held (ar s))) - length (held (ar s)))%nat with 1%nat by lia. cbn [firstn app]. constructor. destruct V10 as [->|V10]; [reflexivity|exact V10].
      * cbn [bind fst snd held]. eexists. split; [reflexivity|]. rewrite Nat.sub_diag. cbn [firstn app].
        constructor; cbn [ar live obtained returned held current current_size next_size initial initial_size app]; auto.
    + assert (HP : 0 < left) by lia. destruct (HR HP) as [R1 [R2 R3]]. unfold take. cbn [bind fst snd held]. eexists. split; [reflexivity|]. rewrite Nat.sub_diag. cbn [firstn app].
      assert (Hw : wrap (current_size (ar s) - (pad + bytes)) = current_size (ar s) - (pad + bytes)) by (apply wrap_small; lia).
      destruct V6 as [b [Hb [I1 I2]]].
      constructor; cbn [ar live obtained returned held current current_size next_size initial initial_size app]; try rewrite Hw; auto.
      * lia.
      * exists b. split; [exact Hb|]. unfold inside. lia.
      * constructor; cbn [fst snd].
        -- intros x [X1 X2]. lia.
        -- eapply Forall_impl; [|exact V7]. intros l Hl. eapply apart_sub; [exact Hl|]. unfold inside. lia.
      * constructor; cbn [fst snd].
        -- split; [lia|]. split; [exact R3|]. exists b. split; [exact Hb|]. unfold inside. lia.
        -- exact V8.
      * constructor; [|exact V9]. cbn [fst snd]. eapply Forall_impl; [|exact V7]. intros l Hl. eapply apart_sub; [exact Hl|]. unfold inside. lia.
  - cbn [serve release]. eexists. split; [reflexivity|]. destruct V as [V1 V2 V5 V6 V7 V8 V9 V10].
    constructor; cbn [ar live obtained returned held current current_size next_size initial initial_size app]; auto.
    + unfold default_next, word. lia.
    + exists (initial (ar s), initial_size (ar s)). split; [now left|]. unfold inside. cbn [fst snd]. lia.
    + constructor.
Qed.

Lemma serve_all_inv : forall rs s, inv s -> honest s rs -> exists s', serve_all s rs = Ok s' /\ inv s'.
Proof.
  induction rs as [|r rs IH]; intros s V H; [exists s; split; [reflexivity|exact V]|].
  destruct H as [H1 H2]. destruct (serve_inv s r V) as [s1 [E1 V1]]. { split; [exact H1|]. intros; exact I. }
  unfold serve_all. cbn [foldM]. rewrite E1. cbn [bind]. apply IH; auto.
Qed.

Lemma new_session_ok : forall buffer size, 0 <= buffer -> 0 <= size -> buffer + size <= word -> size < word ->
  exists s, new_session buffer size = Ok s /\ inv s /\ initial (ar s) = buffer /\ initial_size (ar s) = size /\ live s = [] /\ obtained s = [] /\ returned s = [].
Proof.
  intros b n Hb Hn Hw Hs. unfold new_session, new_arena. destruct (increase_word default_next n) as [k [E [K1 K2]]]; [unfold default_next, word; lia|exact Hs|]. rewrite E. cbn [bind].
  eexists. split; [reflexivity|]. repeat split; cbn [ar live obtained returned held current current_size next_size initial initial_size]; auto; try lia; try constructor.
  - exists (b, n). split; [now left|]. unfold inside. cbn. lia.
Qed.

Lemma arena_disjoint : forall buffer size, 0 <= buffer -> 0 <= size -> buffer + size <= word -> size < word ->
  exists s0, new_session buffer size = Ok s0 /\ forall rs, honest s0 rs ->
  exists s, serve_all s0 rs = Ok s /\
    ForallOrdPairs (fun l m => apart (fst (fst l)) (snd (fst l)) (fst (fst m)) (snd (fst m))) (live s) /\
    Forall (fun l => (fst (fst l)) mod (snd l) = 0 /\ exists b, In b (owned (ar s)) /\ inside (fst (fst l)) (snd (fst l)) (fst b) (snd b)) (live s) /\
    Permutation (obtained s) (held (ar s) ++ returned s).
Proof.
  intros b n Hb Hn Hw Hs. destruct (new_session_ok b n Hb Hn Hw Hs) as [s0 [E [V _]]]. exists s0. split; [exact E|]. intros rs H.
  destruct (serve_all_inv rs s0 V H) as [s [E1 V1]]. exists s. split; [exact E1|]. destruct V1 as [V1 V2 V5 V6 V7 V8 V9 V10]. split; [exact V9|]. split.
  - eapply Forall_impl; [|exact V8]. tauto.
  - destruct V10 as [->|V10]; [reflexivity|exact V10].
Qed.
