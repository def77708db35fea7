(** Two lines of sites into one: shapes and values. *)
From Coq Require Import String Ascii List Bool Arith Lia Permutation.
From Verif Require Import Base.Outcome Base.SMap Model.Symmetry Model.Edge Model.Core Model.EdgeOperator Model.Contract Model.Misc Model.Qr Model.Svd Model.Auxiliaries
  Spec.Blocks Spec.Relabel Spec.Contract Spec.Plain Spec.Lapack Spec.Grid Spec.SquareLattice Spec.Factor Spec.Truncate Spec.Spectrum Spec.Svd Proof.SumFacts Proof.PlainFacts Proof.PlainTools Proof.SumBonds Proof.LineMath.
Import ListNotations.

(** the four ways lines are stacked, and the names of a site seen that way *)
Inductive frame := Fu | Fd | Fl | Fr.
Definition fup (F : frame) : dir := match F with Fu => Up | Fd => Down | Fl => Lft | Fr => Rgt end.
Definition fdown (F : frame) : dir := match F with Fu => Down | Fd => Up | Fl => Rgt | Fr => Lft end.
Definition fleft (F : frame) : dir := match F with Fu | Fd => Lft | Fl | Fr => Up end.
Definition fright (F : frame) : dir := match F with Fu | Fd => Rgt | Fl | Fr => Down end.

Section LineTensor.
  Context {R V : Type} {RR : Scalar R}.
  Notation tens := (tensor unit R).
  Implicit Types t a b : tens.
  Hypotheses (EA : exact_arithmetic R) (MA : associative_product R) (MD : distributive_product R).
  Variables (E : @env R) (J : internal).
  Hypothesis HJ : NoDup [i_contract_0 J; i_contract_1 J; i_contract_2 J].

  Definition sk (F : frame) (u d l r : option nat) : slots := [(nm (fup F) 0, u); (nm (fdown F) 0, d); (nm (fleft F) 0, l); (nm (fright F) 0, r)].
  Definition sa (F : frame) (u d l r : nat) : list (nat * nat) := [(nm (fup F) 0, u); (nm (fdown F) 0, d); (nm (fleft F) 0, l); (nm (fright F) 0, r)].
  Definition sf (F : frame) (t : tens) (u d l r : nat) : R := value t (sa F u d l r).
  (** a site of the double line *)
  Definition dk (F : frame) (d l1 r1 l2 r2 : option nat) : slots :=
    [(nm (fdown F) 0, d); (nm (fleft F) 1, l1); (nm (fright F) 1, r1); (nm (fleft F) 2, l2); (nm (fright F) 2, r2)].
  Definition df (F : frame) (t : tens) (l1 l2 r1 r2 d : nat) : R :=
    value t [(nm (fdown F) 0, d); (nm (fleft F) 1, l1); (nm (fright F) 1, r1); (nm (fleft F) 2, l2); (nm (fright F) 2, r2)].

  Ltac shape := cbn; repeat constructor.
  Ltac look := cbn; repeat (constructor; [first [right; reflexivity | left; reflexivity | left; assumption]|]); try constructor.

  Lemma double_ok : forall F a b ox la ra od lb rb, has a (sk F None ox la ra) -> has b (sk F ox od lb rb) ->
    exists t, double_site E J (fup F) (fdown F) (fleft F) (fright F) a b = Ok t /\ has t (dk F od la ra lb rb) /\
      forall l1 l2 r1 r2 y, l1 < size la -> l2 < size lb -> r1 < size ra -> r2 < size rb -> y < size od ->
        df F t l1 l2 r1 r2 y = Sum (size ox) (fun x => rmul (sf F a 0 x l1 r1) (sf F b x y l2 r2)).
  Proof.
    intros F a b ox la ra od lb rb Ha Hb. unfold double_site.
    set (da := [(nm (fleft F) 0, nm (fleft F) 1); (nm (fright F) 0, nm (fright F) 1)]). set (db := [(nm (fleft F) 0, nm (fleft F) 2); (nm (fright F) 0, nm (fright F) 2)]).
    assert (Na : nodupb (map (rename_one da) (keys (sk F None ox la ra))) = true) by (now destruct F).
    assert (Nb : nodupb (map (rename_one db) (keys (sk F ox od lb rb))) = true) by (now destruct F).
    assert (Ha' := rename_keys_has a _ da Ha Na). assert (Hb' := rename_keys_has b _ db Hb Nb).
    destruct (contract_keys EA E J HJ _ _ _ _ [(nm (fdown F) 0, nm (fup F) 0)] Ha' Hb') as [t [T1 [T2 T3]]]; try (now destruct F).
    { destruct F; shape. }
    exists t. split; [exact T1|]. split; [apply (has_same _ _ _ T2); destruct F; shape|].
    intros l1 l2 r1 r2 y L1 L2 R1 R2 Y. unfold df. rewrite T3.
    - cbn [Sums map]. replace (slot _ _) with ox by (destruct F; reflexivity). apply Sum_ext. intros x Hx. unfold product, sf. f_equal.
      + apply (rename_keys_value _ _ _ _ _ Ha Na). destruct F; look.
      + apply (rename_keys_value _ _ _ _ _ Hb Nb). destruct F; look.
    - apply in_slots_all. destruct F; cbn; repeat constructor; cbn; auto.
  Qed.

  (** ** a site with a single bond on the left and two on the right *)
  Definition mk (F : frame) (d l r1 r2 : option nat) : slots := [(nm (fdown F) 0, d); (nm (fleft F) 0, l); (nm (fright F) 1, r1); (nm (fright F) 2, r2)].
  Definition mf (F : frame) (t : tens) (l r1 r2 d : nat) : R := value t [(nm (fdown F) 0, d); (nm (fleft F) 0, l); (nm (fright F) 1, r1); (nm (fright F) 2, r2)].
  Variables (Iq : qr_names) (Is : svd_names) (L : qr_lapack R).
  Hypotheses (HN : own_names Iq Is) (HL : qr_sound L).

  Lemma qr_step : forall F a b od l r1 r2 od' e1 e2, has a (mk F od l r1 r2) -> has b (dk F od' r1 e1 r2 e2) ->
    (exists msg, qr L E Iq a "r"%char [nm (fright F) 1; nm (fright F) 2] (nm (fright F) 0) (nm (fleft F) 0) = Throw (RuntimeError msg) /\ ~ qr_never_fails L) \/
    exists q r b' dc rr, qr L E Iq a "r"%char [nm (fright F) 1; nm (fright F) 2] (nm (fright F) 0) (nm (fleft F) 0) = Ok (q, r) /\
      contract E J b r [(nm (fleft F) 1, nm (fright F) 1); (nm (fleft F) 2, nm (fright F) 2)] = Ok b' /\
      has q (sk F None od l (Some dc)) /\ has b' (mk F od' (Some dc) e1 e2) /\
      (forall k x1 x2 y, k < size l -> x1 < size r1 -> x2 < size r2 -> y < size od -> mf F a k x1 x2 y = Sum dc (fun c => rmul (sf F q 0 y k c) (rr c x1 x2))) /\
      (forall c k1 k2 y, c < dc -> k1 < size e1 -> k2 < size e2 -> y < size od' ->
         mf F b' c k1 k2 y = Sum (size r1) (fun x1 => Sum (size r2) (fun x2 => rmul (df F b x1 x2 k1 k2 y) (rr c x1 x2)))).
  Proof.
    intros F a b od l r1 r2 od' e1 e2 Ha Hb. destruct HN as [HN1 [_ HN2]].
    destruct (qr_has EA E J HJ L Iq HL HN1 a (mk F od l r1 r2) [nm (fright F) 1; nm (fright F) 2] (nm (fright F) 0) (nm (fleft F) 0) Ha) as [Th|[q [r [dc [Q1 [Q2 [Q3 Q4]]]]]]].
    { now destruct (HN2 (fright F)) as [? [? _]]. } { now destruct (HN2 (fleft F)) as [? [? _]]. } { now destruct F. } { now destruct F. } { now left. }
    right.
    destruct (contract_keys EA E J HJ b r _ _ [(nm (fleft F) 1, nm (fright F) 1); (nm (fleft F) 2, nm (fright F) 2)] Hb Q3) as [b' [B1 [B2 B3]]]; try (now destruct F).
    { destruct F; shape. }
    exists q, r, b', dc, (fun c x1 x2 => value r [(nm (fleft F) 0, c); (nm (fright F) 1, x1); (nm (fright F) 2, x2)]).
    split; [exact Q1|]. split; [exact B1|]. split; [apply (has_same _ _ _ Q2); destruct F; shape|]. split; [apply (has_same _ _ _ B2); destruct F; shape|]. split.
    - intros k x1 x2 y Hk H1 H2 Hy. unfold mf. rewrite Q4; [|apply in_slots_all; destruct F; cbn; repeat constructor; cbn; auto].
      apply Sum_ext. intros c Hc. unfold sf. f_equal; [apply (value_keys _ _ _ _ Q2)|apply (value_keys _ _ _ _ Q3)]; destruct F; look.
    - intros c k1 k2 y Hc H1 H2 Hy. unfold mf. rewrite B3; [|apply in_slots_all; destruct F; cbn; repeat constructor; cbn; auto].
      cbn [Sums map fst]. replace (slot _ _) with r1 by (destruct F; reflexivity). replace (slot _ _) with r2 by (destruct F; reflexivity).
      apply Sum_ext. intros x1 X1. apply Sum_ext. intros x2 X2. unfold product, df. f_equal; [apply (value_keys _ _ _ _ Hb)|apply (value_keys _ _ _ _ Q3)]; destruct F; look.
  Qed.

  (** ** lines *)
  Fixpoint line (F : frame) (l : option nat) (ts : list tens) (us ds : list (option nat)) : Prop :=
    match ts, us, ds with
    | [], [], [] => l = None
    | t :: ts, u :: us, d :: ds => exists r, has t (sk F u d l r) /\ line F r ts us ds
    | _, _, _ => False
    end.
  Definition nones (ds : list (option nat)) : list (option nat) := map (fun _ => None) ds.
  Definition site_of (F : frame) (t : tens) : sitef * nat := (sf F t, size (dimension t (nm (fright F) 0))).
  Definition lineval (F : frame) (ts : list tens) (l : nat) (xs ys : list nat) : R := LV (map (site_of F) ts) l xs ys.
  Fixpoint dchain (F : frame) (l1 l2 : option nat) (ts : list tens) (ds : list (option nat)) : Prop :=
    match ts, ds with
    | [], [] => l1 = None /\ l2 = None
    | t :: ts, d :: ds => exists r1 r2, has t (dk F d l1 r1 l2 r2) /\ dchain F r1 r2 ts ds
    | _, _ => False
    end.
  Definition dsite_of (F : frame) (t : tens) : dsite := (df F t, size (dimension t (nm (fright F) 1)), size (dimension t (nm (fright F) 2))).
  Definition sizes (ds : list (option nat)) : list nat := map size ds.

  Lemma dim_right : forall F t u d l r, has t (sk F u d l r) -> dimension t (nm (fright F) 0) = r.
  Proof. intros F t u d l r H. rewrite (h_dim _ _ H). now destruct F. Qed.
  Lemma dim_right1 : forall F t d l1 r1 l2 r2, has t (dk F d l1 r1 l2 r2) -> dimension t (nm (fright F) 1) = r1.
  Proof. intros F t d l1 r1 l2 r2 H. rewrite (h_dim _ _ H). now destruct F. Qed.
  Lemma dim_right2 : forall F t d l1 r1 l2 r2, has t (dk F d l1 r1 l2 r2) -> dimension t (nm (fright F) 2) = r2.
  Proof. intros F t d l1 r1 l2 r2 H. rewrite (h_dim _ _ H). now destruct F. Qed.

  Lemma doubles_ok : forall F A S xs ds la lb, line F la A (nones xs) xs -> line F lb S xs ds ->
    exists ts, mapM (fun ab => double_site E J (fup F) (fdown F) (fleft F) (fright F) (fst ab) (snd ab)) (combine A S) = Ok ts /\ dchain F la lb ts ds /\
      forall l1 l2 ys, l1 < size la -> l2 < size lb -> Forall2 lt ys (sizes ds) ->
        LD (map (dsite_of F) ts) l1 l2 ys = LD (doubles (sizes xs) (map (site_of F) A) (map (site_of F) S)) l1 l2 ys.
  Proof.
    intros F A. induction A as [|a A IH]; intros S [|x xs] ds la lb HA HS; cbn [line nones map] in HA; try contradiction.
    - destruct S, ds; cbn [line] in HS; try contradiction. exists []. cbn [combine mapM dchain]. split; [reflexivity|]. split; [now split|]. reflexivity.
    - destruct S as [|s S], ds as [|d ds]; cbn [line] in HS; try contradiction. destruct HA as [ra [Ha HA]]. destruct HS as [rs [Hs HS]].
      destruct (double_ok F a s x la ra d lb rs Ha Hs) as [t [T1 [T2 T3]]].
      destruct (IH S xs ds ra rs HA HS) as [ts [I1 [I2 I3]]].
      exists (t :: ts). cbn [combine mapM fst snd]. rewrite T1. cbn [bind]. rewrite I1. cbn [bind]. split; [reflexivity|]. split; [exists ra, rs; now split|].
      intros l1 l2 ys H1 H2 Hy. cbn [sizes map] in Hy. inversion Hy as [|y d' ys' ds' Hy1 Hy2]; subst.
      cbn [map sizes doubles double LD dsite_of site_of fst snd hd tl]. rewrite (dim_right1 F t _ _ _ _ _ T2), (dim_right2 F t _ _ _ _ _ T2), (dim_right F a _ _ _ _ Ha), (dim_right F s _ _ _ _ Hs).
      apply Sum_ext. intros r1 R1. apply Sum_ext. intros r2 R2. rewrite T3 by assumption. f_equal. now apply I3.
  Qed.

  Lemma LM_ext : forall f f' d1 d2 rest rest' l ys, (forall r1 r2, r1 < d1 -> r2 < d2 -> f l r1 r2 (hd 0 ys) = f' l r1 r2 (hd 0 ys) /\ LD rest r1 r2 (tl ys) = LD rest' r1 r2 (tl ys)) ->
    LM f d1 d2 rest l ys = LM f' d1 d2 rest' l ys.
  Proof. intros f f' d1 d2 rest rest' l ys H. unfold LM. apply Sum_ext. intros r1 R1. apply Sum_ext. intros r2 R2. destruct (H r1 r2 R1 R2) as [-> ->]. reflexivity. Qed.

  Lemma qr_pass_ok : forall F rest a od l r1 r2 ods, has a (mk F od l r1 r2) -> dchain F r1 r2 rest ods ->
    (exists msg, qr_pass E J Iq L (fleft F) (fright F) a rest = Throw (RuntimeError msg) /\ ~ qr_never_fails L) \/
    exists ls, qr_pass E J Iq L (fleft F) (fright F) a rest = Ok ls /\ line F l ls (nones (od :: ods)) (od :: ods) /\
      forall k ys, k < size l -> Forall2 lt ys (sizes (od :: ods)) -> lineval F ls k [] ys = LM (mf F a) (size r1) (size r2) (map (dsite_of F) rest) k ys.
  Proof.
    intros F rest. induction rest as [|b rest IH]; intros a od l r1 r2 ods Ha Hc; destruct ods as [|od' ods]; cbn [dchain] in Hc; try contradiction.
    - destruct Hc as [-> ->]. right. exists [a]. cbn [qr_pass]. split; [reflexivity|].
      assert (Ha' : has a (sk F None od l None)) by (apply (has_same _ _ _ Ha); destruct F; shape).
      split; [cbn [line nones map]; exists None; now split|]. intros k ys Hk Hy. unfold lineval, LM. cbn [map site_of LV LD size]. rewrite (dim_right F a _ _ _ _ Ha'). cbn [size].
      rewrite !(Sum_1 EA). f_equal. unfold sf, mf. apply (value_keys _ _ _ _ Ha). destruct F; look.
    - destruct Hc as [e1 [e2 [Hb Hc]]]. destruct (qr_step F a b od l r1 r2 od' e1 e2 Ha Hb) as [[msg [Th Nv]]|[q [r [b' [dc [rr [Q1 [Q2 [Q3 [Q4 [Q5 Q6]]]]]]]]]]].
      + left. exists msg. cbn [qr_pass]. rewrite Th. now split.
      + cbn [qr_pass]. rewrite Q1. cbn [bind fst snd]. rewrite Q2. cbn [bind].
        destruct (IH b' od' (Some dc) e1 e2 ods Q4 Hc) as [[msg [-> Nv]]|[ls [-> [I2 I3]]]]; [left; exists msg; now split|]. right. exists (q :: ls). cbn [bind]. split; [reflexivity|].
        split; [cbn [line nones map]; exists (Some dc); split; [exact Q3|exact I2]|].
        intros k ys Hk Hy. cbn [sizes map] in Hy. inversion Hy as [|y d' ys' ds' Hy1 Hy2]; subst. cbn [map].
        change (dsite_of F b) with (df F b, size (dimension b (nm (fright F) 1)), size (dimension b (nm (fright F) 2))).
        rewrite (dim_right1 F b _ _ _ _ _ Hb), (dim_right2 F b _ _ _ _ _ Hb).
        rewrite (qr_move EA MA MD (mf F a) (fun k c y => sf F q 0 y k c) rr dc) by (intros x1 x2 X1 X2; cbn [hd]; now apply Q5).
        unfold lineval. cbn [map site_of LV hd tl]. rewrite (dim_right F q _ _ _ _ Q3). cbn [size]. apply Sum_ext. intros c Hc'. f_equal. fold (lineval F ls c [] ys').
        rewrite (I3 c ys' Hc' Hy2). apply LM_ext. intros k1 k2 K1 K2. split; [|reflexivity]. inversion Hy2; subst. cbn [hd]. now apply Q6.
  Qed.

  (** ** the way back *)
  Variables (gesvd : nat -> nat -> list R -> bool * (list V * list R * list R)) (vzero vjunk : V) (greater : V -> V -> bool) (of_real : V -> R).
  Hypotheses (HS : svd_sound of_real vzero greater gesvd) (HO : strict_order greater).
  Definition times (ds : list (option nat)) : nat := fold_right Nat.mul 1 (sizes ds).
  (** the bond dimension suffices for a line with these edges below *)
  Definition enough (cut : nat) (ds : list (option nat)) : Prop := forall k, times (skipn (1 + k) ds) <= cut.

  Lemma svd_pair_ok : forall F cut a b od l m od' r, has a (sk F None od l m) -> has b (sk F None od' m r) -> size od' * size r <= cut ->
    exists u v w d, svd_pair E J Is gesvd vzero vjunk greater of_real (fup F) (fdown F) (fleft F) (fright F) cut a b = Ok (u, v, w) /\ (w = true -> ~ svd_never_fails gesvd) /\
      has u (sk F None od l (Some d)) /\ has v (sk F None od' (Some d) r) /\ d <= size od' * size r /\
      (w = false -> forall y y' k j, y < size od -> y' < size od' -> k < size l -> j < size r ->
         Sum (size m) (fun m => rmul (sf F a 0 y k m) (sf F b 0 y' m j)) = Sum d (fun m => rmul (sf F u 0 y k m) (sf F v 0 y' m j))).
  Proof.
    intros F cut a b od l m od' r Ha Hb Hcut. destruct HN as [_ [HN1 HN2]]. unfold svd_pair.
    set (da := [(nm (fup F) 0, nm (fup F) 1); (nm (fdown F) 0, nm (fdown F) 1)]). set (db := [(nm (fup F) 0, nm (fup F) 2); (nm (fdown F) 0, nm (fdown F) 2)]).
    assert (Na : nodupb (map (rename_one da) (keys (sk F None od l m))) = true) by (now destruct F).
    assert (Nb : nodupb (map (rename_one db) (keys (sk F None od' m r))) = true) by (now destruct F).
    assert (Ha' := rename_keys_has a _ da Ha Na). assert (Hb' := rename_keys_has b _ db Hb Nb).
    destruct (contract_keys EA E J HJ _ _ _ _ [(nm (fright F) 0, nm (fleft F) 0)] Ha' Hb') as [t [T1 [T2 T3]]]; try (now destruct F).
    { destruct F; shape. }
    rewrite T1. cbn [bind].
    set (K := [(nm (fup F) 1, None); (nm (fdown F) 1, od); (nm (fleft F) 0, l); (nm (fup F) 2, None); (nm (fdown F) 2, od'); (nm (fright F) 0, r)] : slots).
    assert (HK : has t K) by (apply (has_same _ _ _ T2); destruct F; shape).
    assert (Pd : fold_right Nat.mul 1 (map (fun p => size (snd p)) (without [nm (fleft F) 0; nm (fup F) 1; nm (fdown F) 1] K)) = size od' * size r).
    { transitivity (1 * (size od' * (size r * 1))); [now destruct F|lia]. }
    destruct (svd_has EA E J HJ of_real vzero vjunk greater gesvd Is MA HS HO HN1 t K [nm (fleft F) 0; nm (fup F) 1; nm (fdown F) 1] (nm (fright F) 0) (nm (fleft F) 0) cut HK) as [u [sing [v [w [u' [d [S1 [S2 [S3 [S4 [S5 [S6 S7]]]]]]]]]]]].
    { apply nodupb_ok. now destruct F. } { now destruct (HN2 (fright F)) as [_ [_ [? _]]]. } { now destruct (HN2 (fleft F)) as [_ [_ [_ ?]]]. } { now destruct F. } { now destruct F. } { now rewrite Pd. }
    rewrite S1. cbn [bind]. unfold as_scalars in S3. rewrite S3. cbn [bind]. rewrite Pd in S6.
    set (du := [(nm (fup F) 1, nm (fup F) 0); (nm (fdown F) 1, nm (fdown F) 0)]). set (dv := [(nm (fup F) 2, nm (fup F) 0); (nm (fdown F) 2, nm (fdown F) 0)]).
    set (Ku := [(nm (fright F) 0, Some d); (nm (fup F) 1, None); (nm (fdown F) 1, od); (nm (fleft F) 0, l)] : slots).
    set (Kv := [(nm (fleft F) 0, Some d); (nm (fup F) 2, None); (nm (fdown F) 2, od'); (nm (fright F) 0, r)] : slots).
    assert (Hu : has u' Ku) by (apply (has_same _ _ _ S4); destruct F; shape).
    assert (Hv : has v Kv) by (apply (has_same _ _ _ S5); destruct F; shape).
    assert (Nu : nodupb (map (rename_one du) (keys Ku)) = true) by (now destruct F).
    assert (Nv : nodupb (map (rename_one dv) (keys Kv)) = true) by (now destruct F).
    exists (edge_rename u' du), (edge_rename v dv), w, d. split; [reflexivity|]. split; [exact S2|].
    split; [apply (has_same _ _ _ (rename_keys_has _ _ du Hu Nu)); destruct F; shape|]. split; [apply (has_same _ _ _ (rename_keys_has _ _ dv Hv Nv)); destruct F; shape|]. split; [exact S6|].
    intros Hw y y' k j Hy Hy' Hk Hj. specialize (S7 Hw).
    set (at_ := [(nm (fup F) 1, 0); (nm (fdown F) 1, y); (nm (fleft F) 0, k); (nm (fup F) 2, 0); (nm (fdown F) 2, y'); (nm (fright F) 0, j)]).
    transitivity (value t at_).
    - rewrite T3; [|apply in_slots_all; destruct F; cbn; repeat constructor; cbn; auto]. cbn [Sums map]. replace (slot _ _) with m by (destruct F; reflexivity). apply Sum_ext. intros i Hi. unfold product, sf. f_equal; symmetry.
      + apply (rename_keys_value _ _ _ _ _ Ha Na). destruct F; look.
      + apply (rename_keys_value _ _ _ _ _ Hb Nb). destruct F; look.
    - rewrite S7; [|apply in_slots_all; destruct F; cbn; repeat constructor; cbn; auto]. apply Sum_ext. intros i Hi. unfold sf. f_equal; symmetry.
      + apply (rename_keys_value _ _ _ _ _ Hu Nu). destruct F; look.
      + apply (rename_keys_value _ _ _ _ _ Hv Nv). destruct F; look.
  Qed.

  Lemma svd_pass_ok : forall F cut rest a l od ods, line F l (a :: rest) (nones (od :: ods)) (od :: ods) -> (forall k, times (skipn k ods) <= cut) ->
    exists ls w, svd_pass E J Is gesvd vzero vjunk greater of_real (fup F) (fdown F) (fleft F) (fright F) cut a rest = Ok (ls, w) /\ (w = true -> ~ svd_never_fails gesvd) /\
      (exists b ls' r, ls = b :: ls' /\ has b (sk F None od l r) /\ size r <= times ods /\ line F r ls' (nones ods) ods) /\
      (w = false -> forall k ys, k < size l -> Forall2 lt ys (sizes (od :: ods)) -> lineval F ls k [] ys = lineval F (a :: rest) k [] ys).
  Proof.
    intros F cut rest. induction rest as [|b rest IH]; intros a l od ods H Hcut; cbn [line nones map] in H; destruct H as [r [Ha H]].
    - destruct ods as [|]; cbn [line map] in H; try contradiction. subst r. exists [a], false. cbn [svd_pass]. split; [reflexivity|]. split; [discriminate|]. split.
      + exists a, [], None. split; [reflexivity|]. split; [exact Ha|]. split; [cbn; lia|reflexivity].
      + reflexivity.
    - destruct ods as [|od' ods]; [cbn [line map] in H; contradiction|].
      destruct (IH b r od' ods H) as [ls [w [I1 [I2 [[b' [ls' [rr [-> [Hb [Hr Hl]]]]]] I4]]]]].
      { intro k. exact (Hcut (1 + k)). }
      destruct (svd_pair_ok F cut a b' od l r od' rr Ha Hb) as [u [v [w' [d [S1 [S2 [S3 [S4 [S5 S6]]]]]]]]].
      { etransitivity; [|exact (Hcut 0)]. cbn [skipn]. unfold times. cbn [sizes map fold_right]. fold (sizes ods). fold (times ods). apply Nat.mul_le_mono_l. exact Hr. }
      exists (u :: v :: ls'), (w || w'). cbn [svd_pass]. rewrite I1. unfold bindw. cbn [bind fst snd]. rewrite S1. cbn [bind fst snd]. split; [reflexivity|]. split; [|split].
      + intro Q. apply orb_true_iff in Q as [Q|Q]; auto.
      + exists u, (v :: ls'), (Some d). split; [reflexivity|]. split; [exact S3|]. split.
        * cbn [size]. etransitivity; [exact S5|]. unfold times. cbn [sizes map fold_right]. fold (sizes ods). fold (times ods). apply Nat.mul_le_mono_l. exact Hr.
        * cbn [line nones map]. exists rr. now split.
      + intro Q. apply orb_false_iff in Q as [Qw Qw']. intros k ys Hk Hy. specialize (I4 Qw). specialize (S6 Qw').
        inversion Hy as [|y d' ys' ds' Hy1 Hy2]; subst. inversion Hy2 as [|y' d' ys'' ds' Hy3 Hy4]; subst.
        transitivity (lineval F (a :: b' :: ls') k [] (y :: y' :: ys'')).
        * unfold lineval. cbn [map]. unfold site_of at 1 2 4 5. rewrite (dim_right F a _ _ _ _ Ha), (dim_right F b' _ _ _ _ Hb), (dim_right F u _ _ _ _ S3), (dim_right F v _ _ _ _ S4). symmetry.
          apply (svd_move EA MA MD). intros j Hj. cbn [hd tl]. now apply S6.
        * unfold lineval. cbn [map]. change (site_of F a) with (sf F a, size (dimension a (nm (fright F) 0))). rewrite (dim_right F a _ _ _ _ Ha). cbn [LV hd tl]. apply Sum_ext. intros i Hi. f_equal.
          assert (Q := I4 i (y' :: ys'') Hi Hy2). unfold lineval in Q. cbn [map LV hd tl] in Q. exact Q.
  Qed.

  (** ** results with a flag *)
  Definition fine {A : Type} (x : res (A * bool)) (P Q : A -> Prop) : Prop :=
    (exists msg, x = Throw (RuntimeError msg) /\ ~ qr_never_fails L) \/
    exists (a : A) (w : bool), x = Ok (a, w) /\ (w = true -> ~ svd_never_fails gesvd) /\ P a /\ (w = false -> Q a).
  Lemma fine_bind : forall (A B : Type) (x : res (A * bool)) (f : A -> res (B * bool)) (P Q : A -> Prop) (P' Q' : B -> Prop), fine x P Q -> (forall a : A, P a -> fine (f a) P' (fun b : B => Q a -> Q' b)) -> fine (bindw x f) P' Q'.
  Proof.
    intros A B x f P Q P' Q' [[msg [-> N]]|[a [w [-> [W [HP HQ]]]]]] H; [left; exists msg; now split|]. unfold bindw. cbn [bind fst snd].
    destruct (H a HP) as [[msg [-> N]]|[b [w' [-> [W' [HP' HQ']]]]]]; [left; exists msg; now split|]. right. exists b, (w || w'). cbn [bind fst snd]. split; [reflexivity|]. split; [|split; [exact HP'|]].
    - intro O. apply orb_true_iff in O as [O|O]; auto.
    - intro O. apply orb_false_iff in O as [O1 O2]. auto.
  Qed.
  Lemma fine_ok : forall (A : Type) (x : res A) (a : A) (P Q : A -> Prop), x = Ok a -> P a -> Q a -> fine (quiet x) P Q.
  Proof. intros A x a P Q -> HP HQ. right. exists a, false. split; [reflexivity|]. split; [discriminate|]. now split. Qed.
  Lemma fine_weaken : forall (A : Type) (x : res (A * bool)) (P Q P' Q' : A -> Prop), fine x P Q -> (forall a : A, P a -> P' a) -> (forall a : A, P a -> Q a -> Q' a) -> fine x P' Q'.
  Proof. intros A x P Q P' Q' [T|[a [w [H1 [H2 [H3 H4]]]]]] HP HQ; [now left|]. right. exists a, w. auto 6. Qed.

  (** ** two lines to one line *)
  Lemma line_length : forall F ts l us ds, line F l ts us ds -> length ts = length us /\ length ts = length ds.
  Proof. intros F. induction ts as [|t ts IH]; intros l [|u us] [|d ds] H; cbn [line] in H; try contradiction; [now split|]. destruct H as [r [_ H]]. apply IH in H. cbn. lia. Qed.
  Theorem two_lines_ok : forall F cut A S xs ds, xs <> [] -> line F None A (nones xs) xs -> line F None S xs ds -> enough cut ds ->
    fine (two_line_to_one_line E J Iq Is L gesvd vzero vjunk greater of_real (fup F) (fdown F) (fleft F) (fright F) cut A S)
      (fun l => line F None l (nones ds) ds)
      (fun l => forall ys, Forall2 lt ys (sizes ds) -> lineval F l 0 [] ys = Sums (sizes xs) (fun x => rmul (lineval F A 0 [] x) (lineval F S 0 x ys))).
  Proof.
    intros F cut A S xs ds Hx HA HS' Hcut. unfold two_line_to_one_line.
    destruct (line_length _ _ _ _ _ HA) as [LA LA']. destruct (line_length _ _ _ _ _ HS') as [LS LS'].
    replace (Nat.eqb (length S) (length A)) with true by (symmetry; apply Nat.eqb_eq; lia). cbn [negb].
    destruct (doubles_ok F A S xs ds None None HA HS') as [ts [T1 [T2 T3]]]. rewrite T1. cbn [bind].
    destruct ts as [|a rest]; [destruct ds; cbn [dchain] in T2; [|contradiction]; destruct xs; cbn in *; [congruence|lia]|].
    destruct ds as [|d ds]; cbn [dchain] in T2; [contradiction|]. destruct T2 as [r1 [r2 [Ha Hr]]].
    assert (Hm : has a (mk F d None r1 r2)) by (apply (has_same _ _ _ Ha); destruct F; shape).
    destruct (qr_pass_ok F rest a d None r1 r2 ds Hm Hr) as [[msg [-> N]]|[ls [-> [Q2 Q3]]]]; [left; exists msg; now split|]. cbn [bind].
    destruct ls as [|b ls]; [cbn [line nones map] in Q2; contradiction|].
    destruct (svd_pass_ok F cut ls b None d ds Q2) as [l [w [S1 [S2 [[b' [l' [r [-> [S4 [_ S5]]]]]] S6]]]]].
    { intro k. exact (Hcut k). }
    rewrite S1. right. exists (b' :: l'), w. split; [reflexivity|]. split; [exact S2|]. split; [cbn [line nones map]; now exists r|].
    intros Hw ys Hy. rewrite (S6 Hw 0 ys); [|cbn; lia|exact Hy]. rewrite Q3; [|cbn; lia|exact Hy].
    transitivity (LD (map (dsite_of F) (a :: rest)) 0 0 ys).
    - cbn [map dsite_of LD]. rewrite (dim_right1 F a _ _ _ _ _ Ha), (dim_right2 F a _ _ _ _ _ Ha). unfold LM. apply Sum_ext. intros x1 _. apply Sum_ext. intros x2 _. f_equal. unfold mf, df. apply (value_keys _ _ _ _ Ha). destruct F; look.
    - rewrite T3; [|cbn; lia|cbn; lia|exact Hy]. apply (two_lines EA MA MD); unfold sizes; rewrite !map_length; cbn in LS; unfold nones in LA; rewrite ?map_length in LA; lia.
  Qed.
End LineTensor.
