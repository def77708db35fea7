(** Lemmas for C33, C34: broadcast and reduce along the binary tree of ranks. *)
From Coq Require Import String List Bool Arith ZArith Lia Permutation.
From Verif Require Import Base.Outcome Model.Lazy Model.Mpi Spec.Runs Proof.LazyFacts Proof.Network.
Import ListNotations.

Section Ranks.
  Variables (size root : nat).
  Hypothesis Hroot : root < size.
  Notation fake r := (fake_rank size r root). Notation real f := (real_rank size f root).

  Lemma mod_plus : forall x, x < size -> (size + x) mod size = x.
  Proof. intros x H. replace (size + x) with (x + 1 * size) by lia. rewrite Nat.mod_add by lia. apply Nat.mod_small. exact H. Qed.
  Lemma real_lt : forall f, real f < size.
  Proof. intros f. apply Nat.mod_upper_bound. lia. Qed.
  Lemma fake_lt : forall r, fake r < size.
  Proof. intros r. apply Nat.mod_upper_bound. lia. Qed.
  Lemma fake_real : forall f, f < size -> fake (real f) = f.
  Proof.
    intros f H. unfold fake_rank, real_rank. destruct (Nat.lt_ge_cases (f + root) size) as [L|G].
    - rewrite (Nat.mod_small (f + root)) by exact L. replace (size + (f + root) - root) with (size + f) by lia. apply mod_plus. exact H.
    - replace (f + root) with (size + (f + root - size)) by lia. rewrite mod_plus by lia.
      replace (size + (f + root - size) - root) with f by lia. apply Nat.mod_small. exact H.
  Qed.
  Lemma real_fake : forall r, r < size -> real (fake r) = r.
  Proof.
    intros r H. unfold fake_rank, real_rank. destruct (Nat.lt_ge_cases r root) as [L|G].
    - rewrite (Nat.mod_small (size + r - root)) by lia. replace (size + r - root + root) with (size + r) by lia. apply mod_plus. exact H.
    - replace (size + r - root) with (size + (r - root)) by lia. rewrite mod_plus by lia. replace (r - root + root) with r by lia. apply Nat.mod_small. exact H.
  Qed.
  Lemma real_root : real 0 = root.
  Proof. apply Nat.mod_small. exact Hroot. Qed.
End Ranks.

Lemma father_left : forall f, (f * 2 + 1 - 1) / 2 = f.
Proof. intros f. replace (f * 2 + 1 - 1) with (f * 2) by lia. apply Nat.div_mul. lia. Qed.
Lemma father_right : forall f, (f * 2 + 2 - 1) / 2 = f.
Proof. intros f. replace (f * 2 + 2 - 1) with (1 + f * 2) by lia. rewrite Nat.div_add by lia. reflexivity. Qed.

Section Collective.
  Context {V A : Type}.
  Variables (size root : nat).
  Hypothesis Hroot : root < size.
  Notation fake r := (fake_rank size r root). Notation real f := (real_rank size f root).
  Definition by_fake (G : nat -> prog V A) : net V A := state size (fun r => G (fake r)).

  Lemma by_fake_ext : forall G G', (forall h, h < size -> G h = G' h) -> by_fake G = by_fake G'.
  Proof. intros G G' H. apply state_ext. intros r _. apply H. apply fake_lt. exact Hroot. Qed.
  Lemma meet_fake : forall G G' f g v k k', f < size -> g < size -> f <> g -> G f = Send (real g) v k -> G g = Receive (real f) k' ->
    (forall h, h < size -> G' h = if Nat.eqb h f then k else if Nat.eqb h g then k' v else G h) -> meets (by_fake G) (by_fake G').
  Proof.
    intros G G' f g v k k' Hf Hg Hfg Ef Eg HG. apply (meet_state size _ _ (real f) (real g) v k k').
    - apply real_lt. exact Hroot.
    - apply real_lt. exact Hroot.
    - rewrite fake_real by assumption. exact Ef.
    - rewrite fake_real by assumption. exact Eg.
    - intros r Hr. rewrite HG by (apply fake_lt; exact Hroot).
      assert (Q : forall h, h < size -> Nat.eqb (fake r) h = Nat.eqb r (real h)).
      { intros h Hh. apply eq_true_iff_eq. rewrite !Nat.eqb_eq. split; [intros <-; rewrite real_fake by assumption; reflexivity|intros ->; apply fake_real; assumption]. }
      rewrite !Q by assumption. reflexivity.
  Qed.

  Section Broadcast.
    Variables (val : nat -> V) (k : nat -> V -> prog V A).
    Hypothesis Hsize : size <> 1.
    Let K h := k (real h).
    Let sons h (x : V) : prog V A :=
      let rest := if Nat.ltb (h * 2 + 2) size then Send (real (h * 2 + 2)) x (K h x) else K h x in
      if Nat.ltb (h * 2 + 1) size then Send (real (h * 2 + 1)) x rest else rest.
    Let B h := if negb (Nat.eqb h 0) then Receive (real ((h - 1) / 2)) (sons h) else sons h (val (real h)).
    Let v0 := val root.
    Let G f h := if Nat.ltb h f then K h v0 else if Nat.ltb h (2 * f + 1) then sons h v0 else B h.

    Lemma broadcast_is : forall r, r < size -> broadcast size r (Z.of_nat root) (val r) (k r) = B (fake r).
    Proof.
      intros r Hr. unfold broadcast. replace (Nat.eqb size 1) with false by (symmetry; apply Nat.eqb_neq; exact Hsize).
      replace (valid_root (Z.of_nat root) size) with true by (symmetry; apply andb_true_iff; split; [apply Z.leb_le; lia|apply Z.ltb_lt; lia]).
      rewrite Nat2Z.id. unfold B, sons, K. rewrite real_fake by assumption. reflexivity.
    Qed.
    Ltac cases := repeat match goal with
      | |- context [Nat.ltb ?a ?b] => let H := fresh "L" in destruct (Nat.ltb_spec a b) as [H|H]
      | |- context [Nat.eqb ?a ?b] => let H := fresh "L" in destruct (Nat.eqb_spec a b) as [H|H]
      end.
    Lemma broadcast_round : forall f, f < size -> meets (by_fake (G f)) (by_fake (G (S f))).
    Proof.
      intros f Hf. destruct (Nat.lt_ge_cases (f * 2 + 1) size) as [L|L].
      - assert (BL : forall h, h = f * 2 + 1 \/ h = f * 2 + 2 -> B h = Receive (real f) (sons h)).
        { intros h Hh. unfold B. destruct (Nat.eqb_spec h 0); [lia|]. cbn [negb]. destruct Hh as [-> | ->]; [rewrite father_left|rewrite father_right]; reflexivity. }
        destruct (Nat.lt_ge_cases (f * 2 + 2) size) as [R|R].
        + set (G' := fun h => if Nat.eqb h f then Send (real (f * 2 + 2)) v0 (K f v0) else if Nat.eqb h (f * 2 + 1) then sons h v0 else G f h).
          apply meets_trans with (by_fake G').
          * apply (meet_fake (G f) G' f (f * 2 + 1) v0 (Send (real (f * 2 + 2)) v0 (K f v0)) (sons (f * 2 + 1))); auto; try lia.
            -- unfold G. cases; try lia. unfold sons. cases; try lia. reflexivity.
            -- unfold G. cases; try lia. apply BL. left. reflexivity.
            -- intros h Hh. unfold G'. cases; subst; reflexivity.
          * apply (meet_fake G' (G (S f)) f (f * 2 + 2) v0 (K f v0) (sons (f * 2 + 2))); auto; try lia.
            -- unfold G'. rewrite Nat.eqb_refl. reflexivity.
            -- unfold G', G. cases; try lia. apply BL. right. reflexivity.
            -- intros h Hh. unfold G', G. cases; subst; try lia; reflexivity.
        + apply (meet_fake (G f) (G (S f)) f (f * 2 + 1) v0 (K f v0) (sons (f * 2 + 1))); auto; try lia.
          * unfold G. cases; try lia. unfold sons. cases; try lia. reflexivity.
          * unfold G. cases; try lia. apply BL. left. reflexivity.
          * intros h Hh. unfold G. cases; subst; try lia; reflexivity.
      - rewrite (by_fake_ext (G f) (G (S f))); [apply m_refl|]. intros h Hh. unfold G. cases; try lia; try reflexivity. replace h with f by lia. unfold sons. cases; try lia; reflexivity.
    Qed.
    Lemma broadcast_meets : meets (state size (fun r => broadcast size r (Z.of_nat root) (val r) (k r))) (state size (fun r => k r (val root))).
    Proof.
      rewrite (state_ext size _ (fun r => B (fake r)) broadcast_is).
      assert (E0 : by_fake B = by_fake (G 0)).
      { apply by_fake_ext. intros h Hh. unfold G. cases; try lia; [|reflexivity]. replace h with 0 by lia. unfold B. cbn [Nat.eqb negb]. rewrite real_root by exact Hroot. reflexivity. }
      change (state size (fun r => B (fake r))) with (by_fake B). rewrite E0.
      replace (state size (fun r => k r (val root))) with (by_fake (G size)).
      - assert (Q : forall n, n <= size -> meets (by_fake (G 0)) (by_fake (G n))).
        { induction n as [|n IH]; intros Hn; [apply m_refl|]. apply meets_trans with (by_fake (G n)); [apply IH; lia|apply broadcast_round; lia]. }
        apply Q. lia.
      - apply state_ext. intros r Hr. unfold G. assert (Hf := fake_lt size root Hroot r). cases; try lia. unfold K. rewrite real_fake by assumption. reflexivity.
    Qed.
  End Broadcast.

  Section Reduce.
    Variables (op : V -> V -> V) (value : nat -> V) (k : nat -> option V -> prog V A).
    Hypothesis Hsize : size <> 1.
    Let val h := value (real h).
    Let K h := k (real h).
    Fixpoint redf (fuel h : nat) : V :=
      match fuel with
      | 0 => val h
      | S fuel =>
          if Nat.ltb (h * 2 + 1) size then
            let x := op (val h) (redf fuel (h * 2 + 1)) in
            if Nat.ltb (h * 2 + 2) size then op x (redf fuel (h * 2 + 2)) else x
          else val h
      end.
    Definition red h := redf size h.
    Lemma redf_enough : forall a b h, size <= a + h -> size <= b + h -> redf a h = redf b h.
    Proof.
      induction a as [|a IH]; intros [|b] h Ha Hb; cbn [redf]; try reflexivity.
      - destruct (Nat.ltb_spec (h * 2 + 1) size); [lia|reflexivity].
      - destruct (Nat.ltb_spec (h * 2 + 1) size); [lia|reflexivity].
      - rewrite (IH b (h * 2 + 1)), (IH b (h * 2 + 2)) by lia. reflexivity.
    Qed.
    Lemma red_eq : forall h, red h = if Nat.ltb (h * 2 + 1) size then
        let x := op (val h) (red (h * 2 + 1)) in if Nat.ltb (h * 2 + 2) size then op x (red (h * 2 + 2)) else x
      else val h.
    Proof.
      intros h. unfold red at 1. rewrite (redf_enough size (S size)) by lia. cbn [redf]. reflexivity.
    Qed.
    Lemma red_combined : forall h, h < size -> exists ranks, combined size op val h ranks (red h).
    Proof.
      intros h. remember (size - h) as m eqn:Em. revert h Em. induction m as [m IH] using lt_wf_ind. intros h -> Hh. rewrite red_eq.
      destruct (Nat.ltb_spec (h * 2 + 1) size) as [L|L].
      - destruct (IH (size - (h * 2 + 1)) ltac:(lia) (h * 2 + 1) eq_refl L) as [rs C]. destruct (Nat.ltb_spec (h * 2 + 2) size) as [R|R].
        + destruct (IH (size - (h * 2 + 2)) ltac:(lia) (h * 2 + 2) eq_refl R) as [rs' C']. exists (h :: rs ++ rs'). cbn zeta.
          replace (h * 2 + 1) with (2 * h + 1) in C by lia. replace (h * 2 + 2) with (2 * h + 2) in C' by lia. replace (h * 2 + 1) with (2 * h + 1) by lia. replace (h * 2 + 2) with (2 * h + 2) by lia.
          apply two_sons; [lia|exact C|exact C'].
        + exists (h :: rs). cbn zeta. replace (h * 2 + 1) with (2 * h + 1) in * by lia. apply one_son; [lia|lia|exact C].
      - exists [h]. apply leaf. lia.
    Qed.
    Definition result h : option V := if Nat.ltb (h * 2 + 1) size then Some (red h) else None.
    Let up h : prog V A := if negb (Nat.eqb h 0) then Send (real ((h - 1) / 2)) (red h) (K h (result h)) else K h (result h).
    Let to_father h (o : option V) : prog V A :=
      if negb (Nat.eqb h 0) then
        let father := real ((h - 1) / 2) in
        if Nat.ltb (h * 2 + 1) size then match o with Some r => Send father r (K h o) | None => Stop UB end else Send father (val h) (K h o)
      else K h o.
    Let from_right h (o : option V) : prog V A :=
      if Nat.ltb (h * 2 + 2) size then Receive (real (h * 2 + 2)) (fun y => match o with Some r => to_father h (Some (op r y)) | None => Stop UB end) else to_father h o.
    Let R h := if Nat.ltb (h * 2 + 1) size then Receive (real (h * 2 + 1)) (fun x => from_right h (Some (op (val h) x))) else from_right h None.
    Let D f h := if Nat.ltb h f then R h else if Nat.ltb h (2 * f + 1) then up h else K h (result h).

    Lemma reduce_is : forall r, r < size -> reduce size r (Z.of_nat root) op (value r) (k r) = R (fake r).
    Proof.
      intros r Hr. unfold reduce. replace (Nat.eqb size 1) with false by (symmetry; apply Nat.eqb_neq; exact Hsize).
      replace (valid_root (Z.of_nat root) size) with true by (symmetry; apply andb_true_iff; split; [apply Z.leb_le; lia|apply Z.ltb_lt; lia]).
      rewrite Nat2Z.id. unfold R, from_right, to_father, K, val. rewrite real_fake by assumption. reflexivity.
    Qed.
    Ltac cases := repeat match goal with
      | |- context [Nat.ltb ?a ?b] => let H := fresh "L" in destruct (Nat.ltb_spec a b) as [H|H]
      | |- context [Nat.eqb ?a ?b] => let H := fresh "L" in destruct (Nat.eqb_spec a b) as [H|H]
      end.
    Lemma done_up : forall h, Nat.ltb (h * 2 + 1) size = true -> to_father h (Some (red h)) = up h.
    Proof. intros h H. unfold to_father, up, result. rewrite H. reflexivity. Qed.
    Lemma leaf_up : forall h, Nat.ltb (h * 2 + 1) size = false -> R h = up h.
    Proof.
      intros h H. assert (Q : Nat.ltb (h * 2 + 2) size = false) by (apply Nat.ltb_ge in H; apply Nat.ltb_ge; lia).
      unfold R, from_right. rewrite H, Q. unfold to_father, up, result. rewrite H, red_eq, H. reflexivity.
    Qed.
    Lemma son_up : forall g h, h = g * 2 + 1 \/ h = g * 2 + 2 -> up h = Send (real g) (red h) (K h (result h)).
    Proof. intros g h Hh. unfold up. destruct (Nat.eqb_spec h 0); [lia|]. cbn [negb]. destruct Hh as [-> | ->]; [rewrite father_left|rewrite father_right]; reflexivity. Qed.
    Lemma reduce_round : forall g, g < size -> meets (by_fake (D (S g))) (by_fake (D g)).
    Proof.
      intros g Hg. destruct (Nat.lt_ge_cases (g * 2 + 1) size) as [L|L].
      - destruct (Nat.lt_ge_cases (g * 2 + 2) size) as [Rt|Rt].
        + set (D' := fun h => if Nat.eqb h (g * 2 + 1) then K h (result h) else if Nat.eqb h g then from_right g (Some (op (val g) (red (g * 2 + 1)))) else D (S g) h).
          apply meets_trans with (by_fake D').
          * apply (meet_fake (D (S g)) D' (g * 2 + 1) g (red (g * 2 + 1)) (K (g * 2 + 1) (result (g * 2 + 1))) (fun x => from_right g (Some (op (val g) x)))); auto; try lia.
            -- unfold D. cases; try lia. apply son_up. left. reflexivity.
            -- unfold D. cases; try lia. unfold R. cases; try lia. reflexivity.
            -- intros h Hh. unfold D'. cases; subst; try lia; reflexivity.
          * apply (meet_fake D' (D g) (g * 2 + 2) g (red (g * 2 + 2)) (K (g * 2 + 2) (result (g * 2 + 2)))
              (fun y => to_father g (Some (op (op (val g) (red (g * 2 + 1))) y)))); auto; try lia.
            -- unfold D', D. cases; try lia. apply son_up. right. reflexivity.
            -- unfold D'. cases; try lia. unfold from_right. cases; try lia. reflexivity.
            -- intros h Hh. unfold D', D. destruct (Nat.eqb_spec h g) as [->|Hn].
               ++ replace (op (op (val g) (red (g * 2 + 1))) (red (g * 2 + 2))) with (red g) by (rewrite (red_eq g); cases; try lia; reflexivity).
                  cases; try lia. symmetry. apply done_up. apply Nat.ltb_lt. exact L.
               ++ cases; subst; try lia; reflexivity.
        + apply (meet_fake (D (S g)) (D g) (g * 2 + 1) g (red (g * 2 + 1)) (K (g * 2 + 1) (result (g * 2 + 1))) (fun x => to_father g (Some (op (val g) x)))); auto; try lia.
          * unfold D. cases; try lia. apply son_up. left. reflexivity.
          * unfold D. cases; try lia. unfold R. cases; try lia. f_equal. unfold from_right. cases; try lia. reflexivity.
          * intros h Hh. unfold D. destruct (Nat.eqb_spec h g) as [->|Hn].
            -- replace (op (val g) (red (g * 2 + 1))) with (red g) by (rewrite (red_eq g); cases; try lia; reflexivity).
               cases; try lia. symmetry. apply done_up. apply Nat.ltb_lt. exact L.
            -- cases; subst; try lia; reflexivity.
      - rewrite (by_fake_ext (D (S g)) (D g)); [apply m_refl|]. intros h Hh. unfold D. destruct (Nat.eq_dec h g) as [->|Hn].
        + cases; try lia. apply leaf_up. apply Nat.ltb_ge. exact L.
        + cases; try lia; reflexivity.
    Qed.
    Lemma reduce_meets : meets (state size (fun r => reduce size r (Z.of_nat root) op (value r) (k r))) (state size (fun r => k r (result (fake r)))).
    Proof.
      rewrite (state_ext size _ (fun r => R (fake r)) reduce_is).
      assert (E0 : by_fake R = by_fake (D size)).
      { apply by_fake_ext. intros h Hh. unfold D. destruct (Nat.ltb_spec h size); [reflexivity|lia]. }
      change (state size (fun r => R (fake r))) with (by_fake R). rewrite E0.
      replace (state size (fun r => k r (result (fake r)))) with (by_fake (D 0)).
      - assert (Q : forall n, n <= size -> meets (by_fake (D n)) (by_fake (D 0))).
        { induction n as [|n IH]; intros Hn; [apply m_refl|]. apply meets_trans with (by_fake (D n)); [apply reduce_round; lia|apply IH; lia]. }
        apply Q. lia.
      - apply state_ext. intros r Hr. unfold D. cases; try lia; unfold K; rewrite ?real_fake by assumption; try reflexivity.
        unfold up. replace (fake r) with 0 by lia. cbn [Nat.eqb negb]. unfold K. replace 0 with (fake r) at 1 by lia. rewrite real_fake by assumption. reflexivity.
    Qed.
  End Reduce.
End Collective.

(** ** The tree visits every rank once *)
Section Tree.
  Context {V : Type} (size : nat) (op : V -> V -> V) (val : nat -> V).
  Notation combined := (combined size op val).

  Lemma combined_head : forall f rs v, combined f rs v -> exists t, rs = f :: t.
  Proof. intros f rs v C. destruct C; eauto. Qed.
  Lemma combined_lt : forall f rs v, combined f rs v -> f < size -> forall x, In x rs -> x < size.
  Proof.
    intros f rs v C. induction C as [f H|f rs x H1 H2 C IH|f rs x rs' y H C IH C' IH']; intros Hf z Hz.
    - destruct Hz as [<-|[]]. exact Hf.
    - destruct Hz as [<-|Hz]; [exact Hf|]. apply IH; [lia|exact Hz].
    - destruct Hz as [<-|Hz]; [exact Hf|]. apply in_app_iff in Hz. destruct Hz; [apply IH|apply IH']; auto; lia.
  Qed.
  Lemma combined_closed : forall f rs v, combined f rs v -> forall x s, In x rs -> s = 2 * x + 1 \/ s = 2 * x + 2 -> s < size -> In s rs.
  Proof.
    intros f rs v C. induction C as [f H|f rs x H1 H2 C IH|f rs x rs' y H C IH C' IH']; intros z s Hz Hs Hl.
    - destruct Hz as [<-|[]]. lia.
    - destruct (combined_head _ _ _ C) as [t ->]. destruct Hz as [<-|Hz].
      + right. left. lia.
      + right. apply (IH z s); assumption.
    - destruct (combined_head _ _ _ C) as [t E]. destruct (combined_head _ _ _ C') as [t' E']. destruct Hz as [<-|Hz].
      + right. apply in_app_iff. destruct Hs as [-> | ->]; [left; rewrite E; left; reflexivity|right; rewrite E'; left; reflexivity].
      + apply in_app_iff in Hz. right. apply in_app_iff. destruct Hz as [Hz|Hz]; [left; apply (IH z s); assumption|right; apply (IH' z s); assumption].
  Qed.
  Lemma combined_below : forall f rs v, combined f rs v -> forall x, In x rs -> exists k, (x + 1) / 2 ^ k = f + 1.
  Proof.
    assert (Q : forall f x k s, (x + 1) / 2 ^ k = s + 1 -> s = 2 * f + 1 \/ s = 2 * f + 2 -> (x + 1) / 2 ^ (S k) = f + 1).
    { intros f x k s E Hs. replace (2 ^ S k) with (2 ^ k * 2) by (cbn; lia). rewrite <- Nat.div_div by (try apply Nat.pow_nonzero; lia). rewrite E.
      symmetry. destruct Hs as [-> | ->]; [apply (Nat.div_unique _ _ _ 0)|apply (Nat.div_unique _ _ _ 1)]; lia. }
    intros f rs v C. induction C as [f H|f rs x H1 H2 C IH|f rs x rs' y H C IH C' IH']; intros z Hz.
    - destruct Hz as [<-|[]]. exists 0. cbn [Nat.pow]. apply Nat.div_1_r.
    - destruct Hz as [<-|Hz]; [exists 0; cbn [Nat.pow]; apply Nat.div_1_r|]. destruct (IH z Hz) as [k E]. exists (S k). apply (Q f z k _ E). left. reflexivity.
    - destruct Hz as [<-|Hz]; [exists 0; cbn [Nat.pow]; apply Nat.div_1_r|]. apply in_app_iff in Hz. destruct Hz as [Hz|Hz].
      + destruct (IH z Hz) as [k E]. exists (S k). apply (Q f z k _ E). left. reflexivity.
      + destruct (IH' z Hz) as [k E]. exists (S k). apply (Q f z k _ E). right. reflexivity.
  Qed.
  Lemma below_unique : forall x a b f g, (x + 1) / 2 ^ a = f + 1 -> (x + 1) / 2 ^ b = g + 1 -> a < b -> g < f.
  Proof.
    intros x a b f g Ea Eb H. replace (2 ^ b) with (2 ^ a * 2 ^ (b - a)) in Eb by (rewrite <- Nat.pow_add_r; f_equal; lia).
    rewrite <- Nat.div_div in Eb by (apply Nat.pow_nonzero; lia). rewrite Ea in Eb. assert ((f + 1) / 2 ^ (b - a) < f + 1); [|lia]. apply Nat.div_lt; [lia|].
    replace (b - a) with (S (b - a - 1)) by lia. cbn [Nat.pow]. assert (2 ^ (b - a - 1) <> 0) by (apply Nat.pow_nonzero; lia). lia.
  Qed.
  Lemma combined_nodup : forall f rs v, combined f rs v -> NoDup rs.
  Proof.
    assert (Up : forall f rs v, combined f rs v -> forall x, In x rs -> f <= x).
    { intros f rs v C x Hx. destruct (combined_below f rs v C x Hx) as [k E]. assert ((x + 1) / 2 ^ k <= x + 1); [|lia]. apply Nat.div_le_upper_bound; [apply Nat.pow_nonzero; lia|].
      assert (1 <= 2 ^ k) by (assert (2 ^ k <> 0) by (apply Nat.pow_nonzero; lia); lia). nia. }
    intros f rs v C. induction C as [f H|f rs x H1 H2 C IH|f rs x rs' y H C IH C' IH'].
    - constructor; [intros []|constructor].
    - constructor; [|exact IH]. intros Hin. apply (Up _ _ _ C) in Hin. lia.
    - constructor.
      + intros Hin. apply in_app_iff in Hin. destruct Hin as [Hin|Hin]; [apply (Up _ _ _ C) in Hin|apply (Up _ _ _ C') in Hin]; lia.
      + assert (Dj : forall z, In z rs -> In z rs' -> False).
        { intros z H1 H2. destruct (combined_below _ _ _ C z H1) as [a Ea]. destruct (combined_below _ _ _ C' z H2) as [b Eb].
          destruct (lt_eq_lt_dec a b) as [[Hab|Hab]|Hab]; [|subst b; lia|].
          - assert (Q := below_unique z a b _ _ Ea Eb Hab). lia.
          - assert (Q := below_unique z b a _ _ Eb Ea Hab). assert (2 * f + 1 < 2 * f + 2) by lia.
            (* the left son cannot lie below the right one *)
            replace (2 ^ a) with (2 ^ b * 2 ^ (a - b)) in Ea by (rewrite <- Nat.pow_add_r; f_equal; lia).
            rewrite <- Nat.div_div in Ea by (apply Nat.pow_nonzero; lia). rewrite Eb in Ea.
            assert ((2 * f + 2 + 1) / 2 ^ (a - b) <= (2 * f + 2 + 1) / 2).
            { apply Nat.div_le_compat_l. split; [lia|]. replace (a - b) with (S (a - b - 1)) by lia. cbn [Nat.pow]. assert (2 ^ (a - b - 1) <> 0) by (apply Nat.pow_nonzero; lia). lia. }
            assert ((2 * f + 2 + 1) / 2 = f + 1) by (symmetry; apply (Nat.div_unique _ _ _ 1); lia). lia. }
        clear C C' Up. induction IH as [|z rs Hz ND IHn]; [exact IH'|]. cbn. constructor.
        * rewrite in_app_iff. intros [Hin|Hin]; [contradiction|]. apply (Dj z); [left; reflexivity|exact Hin].
        * apply IHn. intros w H1 H2. apply (Dj w); [right; exact H1|exact H2].
  Qed.
  Lemma combined_all : forall rs v, 0 < size -> combined 0 rs v -> Permutation rs (seq 0 size).
  Proof.
    intros rs v Hs C. apply NoDup_Permutation; [exact (combined_nodup _ _ _ C)|apply seq_NoDup|]. intros x. rewrite in_seq. split.
    - intros Hx. split; [lia|]. exact (combined_lt _ _ _ C Hs x Hx).
    - intros [_ Hx]. cbn in Hx. induction x as [x IH] using lt_wf_ind. destruct (combined_head _ _ _ C) as [t E].
      destruct x as [|x]; [rewrite E; left; reflexivity|]. destruct (Nat.Even_or_Odd x) as [[y Hy]|[y Hy]].
      + apply (combined_closed _ _ _ C y); [apply IH; lia|left; lia|exact Hx].
      + apply (combined_closed _ _ _ C y); [apply IH; lia|right; lia|exact Hx].
  Qed.

  Lemma fold_assoc : (forall a b c, op a (op b c) = op (op a b) c) -> forall l a b, op a (fold_left op l b) = fold_left op l (op a b).
  Proof. intros H l. induction l as [|x l IH]; intros a b; cbn; [reflexivity|]. rewrite IH, H. reflexivity. Qed.
  (** for an associative function: the values one after the other *)
  Lemma combined_fold : (forall a b c, op a (op b c) = op (op a b) c) -> forall f rs v, combined f rs v ->
    exists t, rs = f :: t /\ v = fold_left op (map val t) (val f).
  Proof.
    intros As f rs v C. induction C as [f H|f rs x H1 H2 C IH|f rs x rs' y H C IH C' IH'].
    - exists []. split; reflexivity.
    - destruct IH as [t [-> ->]]. exists ((2 * f + 1) :: t). split; [reflexivity|]. cbn [map fold_left]. apply fold_assoc. exact As.
    - destruct IH as [t [-> ->]]. destruct IH' as [t' [-> ->]]. exists (((2 * f + 1) :: t) ++ ((2 * f + 2) :: t')). split; [reflexivity|].
      rewrite map_app, fold_left_app. cbn [map fold_left]. rewrite !fold_assoc by exact As. reflexivity.
  Qed.
  Lemma fold_perm : (forall a b c, op a (op b c) = op (op a b) c) -> (forall a b, op a b = op b a) -> forall a b t u,
    Permutation (a :: t) (b :: u) -> fold_left op t a = fold_left op u b.
  Proof.
    intros As Co. assert (Sw : forall l a b, fold_left op (b :: l) a = fold_left op (a :: l) b) by (intros l a b; cbn; rewrite Co; reflexivity).
    assert (P1 : forall t u, Permutation t u -> forall a, fold_left op t a = fold_left op u a).
    { intros t u P. induction P as [|x t u P IH|x y t|t u w P1 IH1 P2 IH2]; intros a; cbn; [reflexivity|apply IH| |rewrite IH1; apply IH2].
      f_equal. rewrite <- !As. f_equal. apply Co. }
    intros a b t u P. destruct (Permutation_in a P (or_introl eq_refl)) as [<-|Hin].
    - apply P1. apply Permutation_cons_inv with b. exact P.
    - apply in_split in Hin. destruct Hin as [u1 [u2 ->]]. assert (P2 : Permutation t (b :: u1 ++ u2)).
      { apply Permutation_cons_inv with a. rewrite P. rewrite perm_swap. constructor. symmetry. apply Permutation_middle. }
      rewrite (P1 _ _ P2). rewrite Sw. cbn [fold_left]. rewrite (P1 (u1 ++ a :: u2) (a :: u1 ++ u2)) by (symmetry; apply Permutation_middle). reflexivity.
  Qed.
End Tree.

(** ** Statements *)
Section Statements.
  Context {V A : Type}.
  Lemma finished_stopped : forall size (result : nat -> res A), all_stopped (finished (V := V) size (fun r => Stop (result r))).
  Proof.
    intros size result p x H. cbn in H. apply nth_error_In in H. apply in_map_iff in H. destruct H as [r [<- _]]. eauto.
  Qed.
  Lemma valid_nat : forall (root : Z) size, valid_root root size = true -> exists r, root = Z.of_nat r /\ r < size.
  Proof.
    intros root size H. apply andb_prop in H. destruct H as [H1 H2]. apply Z.leb_le in H1. apply Z.ltb_lt in H2. exists (Z.to_nat root). split; [symmetry; apply Z2Nat.id; exact H1|lia].
  Qed.
  Lemma broadcast_step : forall size (root : Z) (val : nat -> V) (k : nat -> V -> prog V A), valid_root root size = true ->
    meets (state size (fun r => broadcast size r root (val r) (k r))) (state size (fun r => k r (val (Z.to_nat root)))).
  Proof.
    intros size root val k H. destruct (valid_nat root size H) as [r [-> Hr]]. rewrite Nat2Z.id. destruct (Nat.eq_dec size 1) as [->|Hn]; [|apply broadcast_meets; assumption].
    rewrite (state_ext 1 _ (fun r0 => k r0 (val r))); [apply m_refl|]. intros i Hi. unfold broadcast. cbn [Nat.eqb]. replace i with r by lia. reflexivity.
  Qed.

End Statements.

Section Delivered.
  Context {V : Type}.
  Theorem broadcast_delivers : forall size (root : Z) (val : nat -> V), valid_root root size = true ->
    always_reaches (launch size (fun r => broadcast size r root (val r) (fun v => Stop (Ok v)))) (finished size (fun _ => Stop (Ok (val (Z.to_nat root))))).
  Proof.
    intros size root val H. apply meets_always.
    - apply (finished_stopped size (fun _ => Ok (val (Z.to_nat root)))).
    - apply (broadcast_step size root val (fun _ v => Stop (Ok v)) H).
  Qed.
  Theorem broadcast_invalid : forall size rank (root : Z) (value : V) (k : V -> prog V V), size <> 1 -> valid_root root size = false ->
    broadcast size rank root value k = Stop (tat_error "Invalid root rank when mpi broadcast").
  Proof. intros size rank root value k Hs H. unfold broadcast. destruct (Nat.eqb_spec size 1); [contradiction|]. rewrite H. reflexivity. Qed.
  Theorem broadcasts_deliver : forall size (rounds : list (Z * (list V -> nat -> V))), (forall r, In r rounds -> valid_root (fst r) size = true) ->
    always_reaches (launch size (fun r => broadcasts size r rounds [])) (finished size (fun _ => Stop (Ok (announced rounds [])))).
  Proof.
    intros size rounds H. apply meets_always; [apply (finished_stopped size (fun _ => Ok (announced rounds [])))|].
    change (meets (state size (fun r => broadcasts size r rounds [])) (state size (fun _ => Stop (Ok (announced rounds []))))).
    generalize (@nil V) as seen. induction rounds as [|[root val] rounds IH]; intros seen; cbn [broadcasts announced]; [apply m_refl|].
    eapply meets_trans.
    - apply (broadcast_step size root (val seen) (fun r v => broadcasts size r rounds (seen ++ [v]))). apply (H (root, val)). left. reflexivity.
    - apply IH. intros r Hr. apply H. right. exact Hr.
  Qed.

  Lemma combined_unique : forall size op (val : nat -> V) f rs v rs' v', combined size op val f rs v -> combined size op val f rs' v' -> rs = rs' /\ v = v'.
  Proof.
    intros size op val f rs v rs' v' C. revert rs' v'. induction C as [f H|f rs x H1 H2 C IH|f rs x rs' y H C IH C' IH']; intros qs w D; inversion D; subst; try lia.
    - split; reflexivity.
    - edestruct IH as [-> ->]; [eassumption|]. split; reflexivity.
    - edestruct IH as [-> ->]; [eassumption|]. edestruct IH' as [-> ->]; [eassumption|]. split; reflexivity.
  Qed.
  Lemma shifted_all : forall size root ranks, root < size -> Permutation ranks (seq 0 size) -> Permutation (map (fun f => (f + root) mod size) ranks) (seq 0 size).
  Proof.
    intros size root ranks Hr P. apply (Permutation_map (fun f => (f + root) mod size)) in P. etransitivity; [exact P|]. clear P. apply NoDup_Permutation.
    - apply NoDup_nth with (d := 0). rewrite map_length, seq_length. intros i j Hi Hj E.
      rewrite !(nth_indep _ 0 ((0 + root) mod size)) in E by (rewrite map_length, seq_length; assumption).
      rewrite !(map_nth (fun f => (f + root) mod size)) in E. rewrite !seq_nth in E by assumption. cbn [Nat.add] in E.
      rewrite <- (fake_real size root Hr i Hi), <- (fake_real size root Hr j Hj). unfold real_rank. rewrite E. reflexivity.
    - apply seq_NoDup.
    - intros x. rewrite in_map_iff. setoid_rewrite in_seq. split.
      + intros [f [<- _]]. split; [lia|]. apply Nat.mod_upper_bound. lia.
      + intros [_ Hx]. exists (fake_rank size x root). split; [apply (real_fake size root Hr x Hx)|]. split; [lia|]. apply (fake_lt size root Hr x).
  Qed.

  Theorem reduce_combines : forall size (root : Z) op (val : nat -> V), valid_root root size = true ->
    exists result, always_reaches (launch size (fun r => reduce size r root op (val r) (fun o => Stop (Ok o)))) (finished size (fun r => Stop (Ok (result r)))) /\
    exists ranks v, result (Z.to_nat root) = Some v /\ combined size op (fun f => val ((f + Z.to_nat root) mod size)) 0 ranks v /\
      Permutation (map (fun f => (f + Z.to_nat root) mod size) ranks) (seq 0 size).
  Proof.
    intros size root0 op val H. destruct (valid_nat root0 size H) as [root [-> Hr]]. rewrite Nat2Z.id. destruct (Nat.eq_dec size 1) as [->|Hn].
    - exists (fun r => Some (val r)). split.
      + apply meets_always; [apply (finished_stopped 1 (fun r => Ok (Some (val r))))|]. apply m_refl.
      + exists [0], (val root). split; [reflexivity|]. replace root with 0 by lia. split; [apply (leaf 1 op (fun f => val ((f + 0) mod 1)) 0); lia|]. apply Permutation_refl.
    - exists (fun r => result size root op val (fake_rank size r root)). split.
      + apply meets_always; [apply (finished_stopped size (fun r => Ok (result size root op val (fake_rank size r root))))|].
        apply (reduce_meets size root Hr op val (fun _ o => Stop (Ok o)) Hn).
      + destruct (red_combined size root Hr op val Hn 0) as [ranks C]; [lia|]. exists ranks, (red size root op val 0).
        assert (F0 : fake_rank size root root = 0). { unfold fake_rank. replace (size + root - root) with size by lia. apply Nat.mod_same. lia. }
        split; [|split].
        * unfold result. rewrite F0. destruct (Nat.ltb_spec (0 * 2 + 1) size); [reflexivity|lia].
        * exact C.
        * apply shifted_all; [exact Hr|]. apply (combined_all size op _ ranks _ ltac:(lia) C).
  Qed.
  Theorem reduce_invalid : forall size rank (root : Z) op (value : V) (k : option V -> prog V (option V)), size <> 1 -> valid_root root size = false ->
    reduce size rank root op value k = Stop (tat_error "Invalid root rank when mpi reduce").
  Proof. intros size rank root op value k Hs H. unfold reduce. destruct (Nat.eqb_spec size 1); [contradiction|]. rewrite H. reflexivity. Qed.
  Theorem reduce_folds : forall size (root : Z) op (val : nat -> V), valid_root root size = true ->
    (forall a b c, op a (op b c) = op (op a b) c) -> (forall a b, op a b = op b a) ->
    exists result, always_reaches (launch size (fun r => reduce size r root op (val r) (fun o => Stop (Ok o)))) (finished size (fun r => Stop (Ok (result r)))) /\
      result (Z.to_nat root) = Some (fold_left op (map val (seq 1 (size - 1))) (val 0)).
  Proof.
    intros size root op val H As Co. destruct (reduce_combines size root op val H) as [result [E [ranks [v [Ev [C P]]]]]]. exists result. split; [exact E|].
    rewrite Ev. f_equal. destruct (combined_fold size op _ As _ _ _ C) as [t [-> ->]]. 
    destruct (valid_nat root size H) as [r [-> Hr]]. rewrite Nat2Z.id in *. replace (seq 0 size) with (0 :: seq 1 (size - 1)) in P by (destruct size; [lia|cbn; rewrite Nat.sub_0_r; reflexivity]).
    apply (Permutation_map val) in P. cbn [map] in P. rewrite map_map in P. apply (fold_perm op As Co). exact P.
  Qed.
End Delivered.
