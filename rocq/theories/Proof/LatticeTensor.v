(** The contractions of a strip of a lattice, for any of the four ways the lines are stacked. *)
From Coq Require Import String Ascii List Bool Arith Lia Permutation Ring Setoid Morphisms.
From Verif Require Import Base.Outcome Base.SMap Model.Symmetry Model.Edge Model.Core Model.EdgeOperator Model.Contract Model.Misc Model.Qr Model.Svd Model.Auxiliaries
  Spec.Blocks Spec.Relabel Spec.Contract Spec.Plain Spec.Lapack Spec.Grid Spec.SquareLattice Spec.Factor Spec.Truncate Spec.Spectrum Spec.Svd Proof.LoopFacts Proof.SumFacts Proof.CoreFacts Proof.ElemFacts Proof.PlainFacts Proof.PlainTools Proof.SumBonds Proof.LineMath Proof.LineTensor Proof.StripTensor Proof.StripFold Proof.StripAmp Proof.StackTensor Proof.AroundTensor Proof.GridSum.
Import ListNotations.

Section LatticeTensor.
  Context {R V : Type} {RR : Scalar R}.
  Notation tens := (tensor unit R).
  Notation triple := (tens * tens * tens)%type.
  Implicit Types t : tens.
  Hypotheses (EA : exact_arithmetic R) (MA : associative_product R) (MD : distributive_product R).
  Variables (E : @env R) (J : internal).
  Hypothesis HJ : NoDup [i_contract_0 J; i_contract_1 J; i_contract_2 J].
  Variables (Iq : qr_names) (Is : svd_names) (L : qr_lapack R).
  Hypotheses (HN : own_names Iq Is) (HL : qr_sound L).
  Variables (gesvd : nat -> nat -> list R -> bool * (list V * list R * list R)) (vzero vjunk : V) (greater : V -> V -> bool) (of_real : V -> R).
  Hypotheses (HS : svd_sound of_real vzero greater gesvd) (HO : strict_order greater).
  Notation "x *r y" := (rmul x y) (at level 40, left associativity).
  Notation fine := (fine L gesvd).
  Notation around := (around E J Iq Is L gesvd vzero vjunk greater of_real).
  Notation one3 := (fun _ _ _ : nat => rone).

  (** ** a site replaced in the middle line of three lines *)
  Lemma zip3_app : forall a1 a2 s1 s2 c1 c2 : list tens, length a1 = length s1 -> length s1 = length c1 -> zip3 (a1 ++ a2) (s1 ++ s2) (c1 ++ c2) = zip3 a1 s1 c1 ++ zip3 a2 s2 c2.
  Proof.
    unfold zip3. induction a1 as [|x a1 IH]; intros a2 [|y s1] s2 [|z c1] c2 H1 H2; try discriminate; [reflexivity|]. cbn [app combine]. f_equal. apply IH; [now injection H1|now injection H2].
  Qed.
  Lemma zip3_length : forall a s c : list tens, length a = length s -> length s = length c -> length (zip3 a s c) = length s.
  Proof. intros a s c H1 H2. unfold zip3. rewrite !combine_length. lia. Qed.
  Lemma split_at : forall (A : Type) (l : list A) k, k < length l -> exists l1 x l2, l = l1 ++ x :: l2 /\ length l1 = k.
  Proof.
    intros A l k H. destruct (nth_error l k) as [x|] eqn:Hx; [|apply nth_error_None in Hx; lia]. destruct (nth_error_split _ _ Hx) as [l1 [l2 [-> Hl]]]. now exists l1, x, l2.
  Qed.
  Section Line.
    Variables (F : frame) (a c s1 s2 : list tens) (ds es : list (option nat)).
    Hypotheses (Ha : line F None a (nones ds) ds) (Hc : line F None c es (nones es)).
    Lemma amp1_line : forall s0 x, line F None (s1 ++ x :: s2) ds es ->
      amp1 E J F (zip3 a (s1 ++ s0 :: s2) c) (length s1) x = Ok (FV (map (col_of F) (zip3 a (s1 ++ x :: s2) c)) one3 0 0 0).
    Proof.
      intros s0 x Hs. pose proof (zip3_cols F a _ c None None None ds es Ha Hs Hc) as HC.
      destruct (line_length _ _ _ _ _ Ha) as [_ La]. destruct (line_length _ _ _ _ _ Hc) as [Lc _]. destruct (line_length _ _ _ _ _ Hs) as [Ls1 Ls2]. rewrite app_length in Ls1, Ls2. cbn in Ls1, Ls2.
      destruct (split_at _ a (length s1)) as [a1 [a0 [a2 [-> La1]]]]; [lia|]. destruct (split_at _ c (length s1)) as [c1 [c0 [c2 [-> Lc1]]]]; [lia|].
      rewrite !zip3_app in * by (auto; lia). change (zip3 (a0 :: a2) (x :: s2) (c0 :: c2)) with ((a0, x, c0) :: zip3 a2 s2 c2) in *. change (zip3 (a0 :: a2) (s0 :: s2) (c0 :: c2)) with ((a0, s0, c0) :: zip3 a2 s2 c2).
      apply cols_ok_app in HC. destruct HC as [ds1 [ds2 [es1 [es2 [x0 [y0 [z0 [_ [_ [HC1 HC2]]]]]]]]]]. cbn [cols_ok] in HC2. destruct ds2 as [|d ds2]; [contradiction|]. destruct es2 as [|e es2]; [contradiction|].
      destruct HC2 as [x1 [y1 [z1 [K1 [K2 [K3 HC2]]]]]]. pose proof (amp1_ok EA MA MD E J HJ F (zip3 a1 s1 c1) a0 s0 c0 (zip3 a2 s2 c2) x _ _ _ _ _ _ _ _ _ _ _ _ HC1 K1 K2 K3 HC2) as A.
      rewrite zip3_length in A by (auto; lia). exact A.
    Qed.
    Lemma amp2_line : forall s0 s0' x y, line F None (s1 ++ x :: y :: s2) ds es ->
      amp2 E J F (zip3 a (s1 ++ s0 :: s0' :: s2) c) (length s1) x y = Ok (FV (map (col_of F) (zip3 a (s1 ++ x :: y :: s2) c)) one3 0 0 0).
    Proof.
      intros s0 s0' x y Hs. pose proof (zip3_cols F a _ c None None None ds es Ha Hs Hc) as HC.
      destruct (line_length _ _ _ _ _ Ha) as [_ La]. destruct (line_length _ _ _ _ _ Hc) as [Lc _]. destruct (line_length _ _ _ _ _ Hs) as [Ls1 Ls2]. rewrite app_length in Ls1, Ls2. cbn in Ls1, Ls2.
      destruct (split_at _ a (length s1)) as [a1 [a0 [a2 [-> La1]]]]; [lia|]. destruct (split_at _ c (length s1)) as [c1 [c0 [c2 [-> Lc1]]]]; [lia|].
      rewrite app_length in La, Lc. cbn in La, Lc. destruct a2 as [|a0' a2]; [cbn in La; lia|]. destruct c2 as [|c0' c2]; [cbn in Lc; lia|].
      rewrite !zip3_app in * by (auto; lia). change (zip3 (a0 :: a0' :: a2) (x :: y :: s2) (c0 :: c0' :: c2)) with ((a0, x, c0) :: (a0', y, c0') :: zip3 a2 s2 c2) in *.
      change (zip3 (a0 :: a0' :: a2) (s0 :: s0' :: s2) (c0 :: c0' :: c2)) with ((a0, s0, c0) :: (a0', s0', c0') :: zip3 a2 s2 c2).
      apply cols_ok_app in HC. destruct HC as [ds1 [ds2 [es1 [es2 [x0 [y0 [z0 [_ [_ [HC1 HC2]]]]]]]]]]. cbn [cols_ok] in HC2. destruct ds2 as [|d ds2]; [contradiction|]. destruct es2 as [|e es2]; [contradiction|].
      destruct HC2 as [x1 [y1 [z1 [K1 [K2 [K3 HC2]]]]]]. destruct ds2 as [|d' ds2]; [contradiction|]. destruct es2 as [|e' es2]; [contradiction|].
      destruct HC2 as [x2 [y2 [z2 [K4 [K5 [K6 HC2]]]]]].
      pose proof (amp2_ok EA MA MD E J HJ F (zip3 a1 s1 c1) a0 s0 c0 a0' s0' c0' (zip3 a2 s2 c2) x y _ _ _ _ _ _ _ _ _ _ _ _ _ _ _ _ _ HC1 K1 K2 K3 K4 K5 K6 HC2) as A.
      rewrite zip3_length in A by (auto; lia). exact A.
    Qed.
    Lemma left_out_line : forall s0 u d l r, line F None (s1 ++ s0 :: s2) ds es -> has s0 (sk F u d l r) ->
      exists t, left_out E J F (zip3 a (s1 ++ s0 :: s2) c) (length s1) = Ok t /\ has t (ek F u d l r) /\
        forall x, has x (sk F u d l r) ->
          Sum (size u) (fun u => Sum (size d) (fun d => Sum (size l) (fun l => Sum (size r) (fun r => ef F t u d l r *r sf F x u d l r)))) = FV (map (col_of F) (zip3 a (s1 ++ x :: s2) c)) one3 0 0 0.
    Proof.
      intros s0 u d l r Hs H0. pose proof (zip3_cols F a _ c None None None ds es Ha Hs Hc) as HC.
      destruct (line_length _ _ _ _ _ Ha) as [_ La]. destruct (line_length _ _ _ _ _ Hc) as [Lc _]. destruct (line_length _ _ _ _ _ Hs) as [Ls1 Ls2]. rewrite app_length in Ls1, Ls2. cbn in Ls1, Ls2.
      destruct (split_at _ a (length s1)) as [a1 [a0 [a2 [-> La1]]]]; [lia|]. destruct (split_at _ c (length s1)) as [c1 [c0 [c2 [-> Lc1]]]]; [lia|].
      rewrite !zip3_app in * by (auto; lia). change (zip3 (a0 :: a2) (s0 :: s2) (c0 :: c2)) with ((a0, s0, c0) :: zip3 a2 s2 c2) in *.
      apply cols_ok_app in HC. destruct HC as [ds1 [ds2 [es1 [es2 [x0 [y0 [z0 [_ [_ [HC1 HC2]]]]]]]]]]. cbn [cols_ok] in HC2. destruct ds2 as [|d' ds2]; [contradiction|]. destruct es2 as [|e es2]; [contradiction|].
      destruct HC2 as [x1 [y1 [z1 [K1 [K2 [K3 HC2]]]]]].
      assert (S : d' = u /\ e = d /\ y0 = l /\ y1 = r).
      { repeat split.
        - transitivity (dimension s0 (nm (fup F) 0)); [rewrite (h_dim _ _ K2)|rewrite (h_dim _ _ H0)]; now destruct F.
        - transitivity (dimension s0 (nm (fdown F) 0)); [rewrite (h_dim _ _ K2)|rewrite (h_dim _ _ H0)]; now destruct F.
        - transitivity (dimension s0 (nm (fleft F) 0)); [rewrite (h_dim _ _ K2)|rewrite (h_dim _ _ H0)]; now destruct F.
        - transitivity (dimension s0 (nm (fright F) 0)); [rewrite (h_dim _ _ K2)|rewrite (h_dim _ _ H0)]; now destruct F. }
      destruct S as [-> [-> [-> ->]]].
      destruct (hole_ok EA MA MD E J HJ F (zip3 a1 s1 c1) a0 s0 c0 (zip3 a2 s2 c2) _ _ _ _ _ _ _ _ _ _ _ _ HC1 K1 K3 HC2) as [t [A1 [A2 A3]]].
      rewrite zip3_length in A1 by (auto; lia). exists t. split; [exact A1|]. split; [exact A2|]. intros x Hx. rewrite (A3 (sf F x)). rewrite zip3_app by (auto; lia).
      change (zip3 (a0 :: a2) (x :: s2) (c0 :: c2)) with ((a0, x, c0) :: zip3 a2 s2 c2). rewrite map_app. cbn [map]. now rewrite (col_of_ok F a0 x c0 _ _ _ _ _ _ _ _ K1 Hx K3).
    Qed.
    Lemma amp0_line : forall s, line F None s ds es -> amp0 E J F (zip3 a s c) = Ok (FV (map (col_of F) (zip3 a s c)) one3 0 0 0).
    Proof. intros s Hs. apply (amp0_ok EA MA MD E J HJ F _ ds es). now apply zip3_cols. Qed.
  End Line.

  (** ** the lattice: [G k p] is site p of line k, [vd k p] the edge above it, [hd k p] the edge to its left *)
  Section Frame.
    Variables (F : frame) (cut m n : nat) (vd hd : nat -> nat -> option nat).
    Definition site_ok (k p : nat) (t : tens) : Prop := has t (sk F (vd k p) (vd (S k) p) (hd k p) (hd k (S p))).
    Definition line_of (G : nat -> nat -> tens) (k : nat) : list tens := map (G k) (seq 0 n).
    Definition levels (k : nat) : list (option nat) := map (vd k) (seq 0 n).
    Definition dims (b : bond) : nat := match b with Below k p => size (vd (S k) p) | Right_of k p => size (hd k (S p)) end.
    Hypotheses (V0 : forall p, p < n -> vd 0 p = None) (Vm : forall p, p < n -> vd m p = None) (H0 : forall k, k < m -> hd k 0 = None) (Hn : forall k, k < m -> hd k n = None).

    Lemma line_ok : forall G k q p, (forall p', p <= p' < p + q -> site_ok k p' (G k p')) -> hd k (p + q) = None -> line F (hd k p) (map (G k) (seq p q)) (map (vd k) (seq p q)) (map (vd (S k)) (seq p q)).
    Proof.
      intros G k. induction q as [|q IH]; intros p H Hq; cbn [seq map line]; [now rewrite Nat.add_0_r in Hq|].
      exists (hd k (S p)). split; [apply H; lia|]. apply IH; [intros p' Hp; apply H; lia|]. now replace (S p + q) with (p + S q) by lia.
    Qed.
    Lemma row_ok : forall G k, k < m -> (forall p, p < n -> site_ok k p (G k p)) -> line F None (line_of G k) (levels k) (levels (S k)).
    Proof. intros G k Hk H. rewrite <- (H0 k Hk). apply line_ok; [intros p' Hp; apply H; lia|now apply Hn]. Qed.
    Lemma rows_ok : forall G q k, k + q <= m -> (forall k' p, k <= k' < k + q -> p < n -> site_ok k' p (G k' p)) -> rows F (levels k) (map (line_of G) (seq k q)) (map (fun k => levels (S k)) (seq k q)).
    Proof.
      intros G. induction q as [|q IH]; intros k Hk H; cbn [seq map rows]; [exact I|]. split; [apply row_ok; [lia|intros p Hp; apply H; lia]|].
      apply IH; [lia|intros k' p Hk' Hp; apply H; lia].
    Qed.
    Lemma levels_None : forall k, (forall p, p < n -> vd k p = None) -> levels k = repeat None n.
    Proof.
      intros k H. unfold levels. assert (G : forall q p, p + q <= n -> map (vd k) (seq p q) = repeat None q); [|now apply G].
      induction q as [|q IH]; intros p Hp; [reflexivity|]. cbn. rewrite H by lia. f_equal. apply IH. lia.
    Qed.
    Lemma ZV_grid : forall G q k xs, k + q <= m -> (forall k' p, k <= k' < k + q -> p < n -> site_ok k' p (G k' p)) ->
      ZV F (map (line_of G) (seq k q)) (map (fun k => levels (S k)) (seq k q)) (fun _ => rone) xs = ZG n dims (fun k p => sf F (G k p)) q k xs.
    Proof.
      intros G. induction q as [|q IH]; intros k xs Hk H; [reflexivity|]. cbn [seq map ZV ZG].
      replace (sizes (levels (S k))) with (map dims (map (Below k) (seq 0 n))) by (unfold sizes, levels; now rewrite !map_map).
      apply Sums_ext. intros ys _. apply (f_equal2 rmul); [|apply IH; [lia|intros; apply H; lia]].
      unfold lineval, line_of. rewrite map_map. f_equal. apply map_ext_in. intros p Hp. apply in_seq in Hp. unfold site_of. f_equal. unfold dims. rewrite (dim_right F (G k p) _ _ _ _ (H k p ltac:(lia) ltac:(lia))). reflexivity.
    Qed.
    Lemma ZG_dims : forall (dim dim' : bond -> nat) (site : nat -> nat -> nat -> nat -> nat -> nat -> R) q k xs, (forall k' p, k <= k' < k + q -> p < n -> dim (Below k' p) = dim' (Below k' p) /\ dim (Right_of k' p) = dim' (Right_of k' p)) ->
      ZG n dim site q k xs = ZG n dim' site q k xs.
    Proof.
      intros dim dim' site. induction q as [|q IH]; intros k xs H; [reflexivity|]. cbn [ZG].
      replace (map dim' (map (Below k) (seq 0 n))) with (map dim (map (Below k) (seq 0 n))) by (rewrite !map_map; apply map_ext_in; intros p Hp; apply in_seq in Hp; apply H; lia).
      apply Sums_ext. intros ys _. rewrite (IH (S k) ys) by (intros; apply H; lia). f_equal. f_equal. apply map_ext_in. intros p Hp. apply in_seq in Hp. f_equal. apply H; lia.
    Qed.
    Theorem ZV_network : forall G, (forall k p, k < m -> p < n -> site_ok k p (G k p)) ->
      ZV F (map (line_of G) (seq 0 m)) (map (fun k => levels (S k)) (seq 0 m)) (fun _ => rone) (repeat 0 n) = network_sum m n dims (fun k p => sf F (G k p)).
    Proof.
      intros G H. rewrite ZV_grid by (try lia; intros; apply H; lia). rewrite <- (grid_sum EA MA MD). apply ZG_dims. intros k p Hk Hp. unfold bordered, inner, dims. split.
      - destruct (Nat.ltb_spec (1 + k) m); [now rewrite (proj2 (Nat.ltb_lt p n) Hp)|]. cbn [andb]. replace (S k) with m by lia. now rewrite Vm.
      - rewrite (proj2 (Nat.ltb_lt k m)) by lia. destruct (Nat.ltb_spec (1 + p) n); [reflexivity|]. cbn [andb]. replace (S p) with n by lia. rewrite Hn by lia. reflexivity.
    Qed.

    (** ** around line k *)
    Hypotheses (Hpos : 0 < n) (Hcut : forall k, enough cut (levels k)).
    Variable T : nat -> nat -> tens.
    Hypothesis HT : forall k p, k < m -> p < n -> site_ok k p (T k p).
    Definition agree (k : nat) (G : nat -> nat -> tens) : Prop := forall k' p, k' <> k -> G k' p = T k' p.
    Definition around_line (k : nat) := around F cut n (map (line_of T) (seq 0 k)) (line_of T k) (map (line_of T) (seq (S k) (m - S k))).

    Lemma agree_lines : forall k G q i, agree k G -> (k < i \/ i + q <= k) -> map (line_of G) (seq i q) = map (line_of T) (seq i q).
    Proof. intros k G q i A H. apply map_ext_in. intros k' Hk. apply in_seq in Hk. unfold line_of. apply map_ext. intro p. apply A. lia. Qed.
    Lemma last_cons : forall (A : Type) (l : list A) x d, last (x :: l) d = last l x.
    Proof. induction l as [|y l IH]; intros x d; [reflexivity|]. change (last (y :: l) d = last (y :: l) x). now rewrite !IH. Qed.
    Lemma last_levels : forall q k, last (map (fun k => levels (S k)) (seq k q)) (levels k) = levels (k + q).
    Proof. induction q as [|q IH]; intro k; [now rewrite Nat.add_0_r|]. cbn [seq map]. rewrite last_cons, IH. f_equal. lia. Qed.
    Theorem around_line_ok : forall k, k < m -> fine (around_line k)
      (fun cols => exists a c, cols = zip3 a (line_of T k) c /\ line F None a (nones (levels k)) (levels k) /\ line F None c (levels (S k)) (nones (levels (S k))))
      (fun cols => forall G, agree k G -> (forall p, p < n -> site_ok k p (G k p)) ->
         FV (map (col_of F) (with_middle cols (line_of G k))) one3 0 0 0 = network_sum m n dims (fun k p => sf F (G k p))).
    Proof.
      intros k Hk.
      assert (L0 : levels 0 = repeat None n) by (apply levels_None; exact V0). assert (Lm : levels m = repeat None n) by (apply levels_None; exact Vm).
      assert (E1 : last (map (fun k => levels (S k)) (seq 0 k)) (repeat None n) = levels k) by (rewrite <- L0; apply last_levels).
      assert (E2 : last (map (fun k => levels (S k)) (seq (S k) (m - S k))) (levels (S k)) = repeat None n) by (rewrite last_levels; now replace (S k + (m - S k)) with m by lia).
      assert (Enough : forall q i, Forall (enough cut) (map (fun k => levels (S k)) (seq i q))) by (intros q i; apply Forall_map, Forall_forall; intros; apply Hcut).
      unfold around_line. eapply fine_weaken.
      - apply (around_ok EA MA MD E J HJ Iq Is L HN HL gesvd vzero vjunk greater of_real HS HO F cut n _ _ (line_of T k) (map (fun k => levels (S k)) (seq 0 k)) (map (fun k => levels (S k)) (seq (S k) (m - S k))) (levels (S k)) Hpos).
        + rewrite <- L0. apply rows_ok; [lia|intros; apply HT; lia].
        + rewrite E1. apply row_ok; [exact Hk|intros; now apply HT].
        + apply rows_ok; [lia|intros; apply HT; lia].
        + exact E2.
        + apply Enough.
        + constructor; [apply Hcut|apply Enough].
      - intros cols [a [c [-> [_ [_ [A C]]]]]]. rewrite E1 in A. now exists a, c.
      - intros cols _ Q G A HG. rewrite E1 in Q. rewrite (Q (line_of G k)) by (now apply row_ok).
        rewrite <- (ZV_network G).
        + replace (seq 0 m) with (seq 0 k ++ k :: seq (S k) (m - S k)); [|change (k :: seq (S k) (m - S k)) with (seq (0 + k) (S (m - S k))); rewrite <- seq_app; f_equal; lia].
          rewrite !map_app. cbn [map]. rewrite (agree_lines k G k 0 A) by lia. rewrite (agree_lines k G _ (S k) A) by lia. reflexivity.
        + intros k' p Hk' Hp. destruct (Nat.eq_dec k' k) as [->|Hne]; [now apply HG|]. rewrite A by exact Hne. now apply HT.
    Qed.

    (** ** the values *)
    Lemma line_split : forall (G : nat -> nat -> tens) k p, p < n -> line_of G k = map (G k) (seq 0 p) ++ G k p :: map (G k) (seq (S p) (n - S p)).
    Proof.
      intros G k p Hp. unfold line_of. change (G k p :: map (G k) (seq (S p) (n - S p))) with (map (G k) (seq (0 + p) (S (n - S p)))). rewrite <- map_app, <- seq_app. f_equal. f_equal. lia.
    Qed.
    Definition put (G : nat -> nat -> tens) (k p : nat) (x : tens) (k' p' : nat) : tens := if Nat.eqb k' k && Nat.eqb p' p then x else G k' p'.
    Lemma put_same : forall G k p x, put G k p x k p = x.
    Proof. intros. unfold put. now rewrite !Nat.eqb_refl. Qed.
    Lemma put_other : forall G k p x p', p' <> p -> put G k p x k p' = G k p'.
    Proof. intros. unfold put. rewrite Nat.eqb_refl. cbn. now destruct (Nat.eqb_spec p' p). Qed.
    Lemma put_line : forall G k p x k' p', k' <> k -> put G k p x k' p' = G k' p'.
    Proof. intros. unfold put. now destruct (Nat.eqb_spec k' k). Qed.
    Lemma put_split : forall k p x, p < n -> line_of (put T k p x) k = map (T k) (seq 0 p) ++ x :: map (T k) (seq (S p) (n - S p)).
    Proof.
      intros k p x Hp. rewrite (line_split _ k p Hp), put_same. f_equal; [|f_equal]; apply map_ext_in; intros p' Hp'; apply in_seq in Hp'; apply put_other; lia.
    Qed.
    Lemma middle_of : forall a c G k, line F None a (nones (levels k)) (levels k) -> line F None c (levels (S k)) (nones (levels (S k))) -> with_middle (zip3 a (line_of T k) c) (line_of G k) = zip3 a (line_of G k) c.
    Proof.
      intros a c G k Ha Hc. destruct (line_length _ _ _ _ _ Ha) as [_ A]. destruct (line_length _ _ _ _ _ Hc) as [C _].
      unfold levels in A, C. unfold line_of. rewrite map_length, seq_length in A, C. destruct (with_middle_zip a (map (T k) (seq 0 n)) c (map (G k) (seq 0 n))) as [->|D]; rewrite ?map_length, ?seq_length in *; auto; try lia.
    Qed.

    Theorem frame_amp0 : forall k, k < m -> fine (bindw (around_line k) (fun cols => quiet (amp0 E J F cols))) (fun _ => True) (fun v => v = network_sum m n dims (fun k p => sf F (T k p))).
    Proof.
      intros k Hk. eapply fine_bind; [exact (around_line_ok k Hk)|]. intros cols [a [c [-> [Ha Hc]]]].
      assert (Hs : line F None (line_of T k) (levels k) (levels (S k))) by (apply row_ok; [exact Hk|intros; now apply HT]).
      eapply fine_ok; [exact (amp0_line F a c _ _ Ha Hc _ Hs)|exact I|]. intro Q. rewrite <- (Q T); [now rewrite middle_of| |intros; now apply HT]. intros ? ? _. reflexivity.
    Qed.
    Theorem frame_strip : forall k, k < m -> fine (bindw (around_line k) (fun cols => quiet (Auxiliaries.strip E J (fright F) (fleft F) (fdown F) (fup F) 3 1 (rev (map Auxiliaries.flip cols))))) (fun _ => True)
      (fun t => to_scalar t = Ok (network_sum m n dims (fun k p => sf F (T k p)))).
    Proof.
      intros k Hk. eapply fine_bind; [exact (around_line_ok k Hk)|]. intros cols [a [c [-> [Ha Hc]]]].
      assert (Hs : line F None (line_of T k) (levels k) (levels (S k))) by (apply row_ok; [exact Hk|intros; now apply HT]).
      pose proof (amp0_line F a c _ _ Ha Hc _ Hs) as A. unfold amp0 in A. destruct (Auxiliaries.strip _ _ _ _ _ _ _ _ _) as [t|e| |]; cbn [bind] in A; try discriminate A.
      eapply fine_ok; [reflexivity|exact I|]. intro Q. rewrite A. f_equal. rewrite <- (Q T); [now rewrite middle_of| |intros; now apply HT]. intros ? ? _. reflexivity.
    Qed.
    Theorem frame_amp1 : forall k p x, k < m -> p < n -> site_ok k p x ->
      fine (bindw (around_line k) (fun cols => quiet (amp1 E J F cols p x))) (fun _ => True) (fun v => v = network_sum m n dims (fun k' p' => sf F (put T k p x k' p'))).
    Proof.
      intros k p x Hk Hp Hx. eapply fine_bind; [exact (around_line_ok k Hk)|]. intros cols [a [c [-> [Ha Hc]]]].
      assert (HG : forall p', p' < n -> site_ok k p' (put T k p x k p')).
      { intros p' Hp'. destruct (Nat.eq_dec p' p) as [->|]; [now rewrite put_same|]. rewrite put_other by assumption. now apply HT. }
      pose proof (row_ok (put T k p x) k Hk HG) as Hs. rewrite (put_split k p x Hp) in Hs.
      pose proof (amp1_line F a c _ _ _ _ Ha Hc (T k p) x Hs) as A. rewrite map_length, seq_length, <- (line_split T k p Hp), <- (put_split k p x Hp) in A.
      eapply fine_ok; [exact A|exact I|]. intro Q. rewrite <- (Q (put T k p x)); [now rewrite middle_of| |exact HG]. intros k' p' Hne. now apply put_line.
    Qed.
    Theorem frame_amp2 : forall k p x y, k < m -> S p < n -> site_ok k p x -> site_ok k (S p) y ->
      fine (bindw (around_line k) (fun cols => quiet (amp2 E J F cols p x y))) (fun _ => True) (fun v => v = network_sum m n dims (fun k' p' => sf F (put (put T k p x) k (S p) y k' p'))).
    Proof.
      intros k p x y Hk Hp Hx Hy. eapply fine_bind; [exact (around_line_ok k Hk)|]. intros cols [a [c [-> [Ha Hc]]]]. set (G := put (put T k p x) k (S p) y).
      assert (HG : forall p', p' < n -> site_ok k p' (G k p')).
      { intros p' Hp'. unfold G. destruct (Nat.eq_dec p' (S p)) as [->|]; [now rewrite put_same|]. rewrite put_other by assumption.
        destruct (Nat.eq_dec p' p) as [->|]; [now rewrite put_same|]. rewrite put_other by assumption. now apply HT. }
      assert (Split : forall G' : nat -> nat -> tens, line_of G' k = map (G' k) (seq 0 p) ++ G' k p :: G' k (S p) :: map (G' k) (seq (S (S p)) (n - S (S p)))).
      { intro G'. rewrite (line_split G' k p) by lia. f_equal. f_equal. now replace (n - S p) with (S (n - S (S p))) by lia. }
      assert (GS : line_of G k = map (T k) (seq 0 p) ++ x :: y :: map (T k) (seq (S (S p)) (n - S (S p)))).
      { rewrite Split. unfold G. rewrite put_same. rewrite (put_other _ k (S p) y p) by lia. rewrite put_same.
        f_equal; [|f_equal; f_equal]; apply map_ext_in; intros p' Hp'; apply in_seq in Hp'; rewrite !put_other by lia; reflexivity. }
      pose proof (row_ok G k Hk HG) as Hs. rewrite GS in Hs.
      pose proof (amp2_line F a c _ _ _ _ Ha Hc (T k p) (T k (S p)) x y Hs) as A. rewrite map_length, seq_length, <- (Split T), <- GS in A.
      eapply fine_ok; [exact A|exact I|]. intro Q. rewrite <- (Q G); [now rewrite middle_of| |exact HG]. intros k' p' Hne. unfold G. now rewrite !put_line.
    Qed.
    Theorem frame_hole : forall k p, k < m -> p < n ->
      fine (bindw (around_line k) (fun cols => quiet (left_out E J F cols p))) (fun t => has t (ek F (vd k p) (vd (S k) p) (hd k p) (hd k (S p))))
        (fun t => forall x, site_ok k p x ->
          Sum (size (vd k p)) (fun u => Sum (size (vd (S k) p)) (fun d => Sum (size (hd k p)) (fun l => Sum (size (hd k (S p))) (fun r => ef F t u d l r *r sf F x u d l r)))) =
          network_sum m n dims (fun k' p' => sf F (put T k p x k' p'))).
    Proof.
      intros k p Hk Hp. eapply fine_bind; [exact (around_line_ok k Hk)|]. intros cols [a [c [-> [Ha Hc]]]].
      assert (Hs : line F None (line_of T k) (levels k) (levels (S k))) by (apply row_ok; [exact Hk|intros; now apply HT]). pose proof Hs as Hs'. rewrite (line_split T k p Hp) in Hs'.
      destruct (left_out_line F a c _ _ _ _ Ha Hc (T k p) _ _ _ _ Hs' (HT k p Hk Hp)) as [t [A1 [A2 A3]]]. rewrite map_length, seq_length, <- (line_split T k p Hp) in A1.
      eapply fine_ok; [exact A1|exact A2|]. intros Q x Hx. rewrite (A3 x Hx), <- (put_split k p x Hp).
      rewrite <- (Q (put T k p x)); [now rewrite middle_of| |].
      - intros k' p' Hne. now apply put_line.
      - intros p' Hp'. destruct (Nat.eq_dec p' p) as [->|]; [now rewrite put_same|]. rewrite put_other by assumption. now apply HT.
    Qed.
  End Frame.
End LatticeTensor.
