(** The contractions at the end of operator(): none, one or two sites of a strip replaced, one site left out. *)
From Coq Require Import String Ascii List Bool Arith Lia Permutation Ring Setoid Morphisms.
From Verif Require Import Base.Outcome Base.SMap Model.Symmetry Model.Edge Model.Core Model.EdgeOperator Model.Contract Model.Misc Model.Qr Model.Svd Model.Auxiliaries
  Spec.Blocks Spec.Relabel Spec.Contract Spec.Plain Spec.Lapack Spec.Grid Spec.Factor Spec.Truncate Spec.Spectrum Spec.Svd Proof.LoopFacts Proof.SumFacts Proof.CoreFacts Proof.ElemFacts Proof.PlainFacts Proof.PlainTools Proof.SumBonds Proof.LineMath Proof.LineTensor Proof.StripTensor Proof.StripFold.
Import ListNotations.

Section StripAmp.
  Context {R : Type} {RR : Scalar R}.
  Notation tens := (tensor unit R).
  Notation triple := (tens * tens * tens)%type.
  Implicit Types t : tens.
  Hypotheses (EA : exact_arithmetic R) (MA : associative_product R) (MD : distributive_product R).
  Variables (E : @env R) (J : internal).
  Hypothesis HJ : NoDup [i_contract_0 J; i_contract_1 J; i_contract_2 J].
  Notation "x *r y" := (rmul x y) (at level 40, left associativity).
  Add Ring scalars4 : (semi_ring EA MA MD).
  Ltac push := repeat (setoid_rewrite (Sum_mul_r EA MD) || setoid_rewrite (Sum_mul_l EA MD)).
  Ltac shape := cbn; repeat constructor.
  Ltac look := cbn; repeat (constructor; [first [right; reflexivity | left; reflexivity | left; assumption]|]); try constructor.
  Notation one3 := (fun _ _ _ : nat => rone).

  Definition left31 (F : frame) (cols : list triple) (j : nat) : res tens :=
    bind (Auxiliaries.strip E J (fleft F) (fright F) (fup F) (fdown F) 1 3 (firstn j cols)) (fun t => bind (get_or_ub (nth_error cols j)) (fun x => step_1 E J (fleft F) (fright F) 1 t (fst (fst x)))).
  Definition right31 (F : frame) (cols : list triple) (j : nat) : res tens :=
    bind (Auxiliaries.strip E J (fright F) (fleft F) (fdown F) (fup F) 3 1 (rev (map Auxiliaries.flip (skipn (1 + j) cols)))) (fun t => bind (get_or_ub (nth_error cols j)) (fun x => step_1 E J (fright F) (fleft F) 3 t (snd x))).
  Definition amp0 (F : frame) (cols : list triple) : res R := bind (Auxiliaries.strip E J (fright F) (fleft F) (fdown F) (fup F) 3 1 (rev (map Auxiliaries.flip cols))) to_scalar.
  Definition closing (F : frame) (a c : tens) : res R :=
    bind (contract E J a c [(nm (fright F) 1, nm (fleft F) 1); (nm (fright F) 2, nm (fleft F) 2); (nm (fright F) 3, nm (fleft F) 3); (nm (fdown F) 0, nm (fup F) 0)]) to_scalar.
  Definition add_middle (F : frame) (a x : tens) : res tens :=
    contract E J a (edge_rename x [(nm (fright F) 0, nm (fright F) 2)]) [(nm (fright F) 2, nm (fleft F) 0); (nm (fdown F) 0, nm (fup F) 0)].
  Definition add_first (F : frame) (a x : tens) : res tens :=
    contract E J a (edge_rename x [(nm (fright F) 0, nm (fright F) 1)]) [(nm (fright F) 1, nm (fleft F) 0)].
  Definition add_last (F : frame) (a x : tens) : res tens :=
    contract E J a (edge_rename x [(nm (fright F) 0, nm (fright F) 3)]) [(nm (fright F) 3, nm (fleft F) 0); (nm (fdown F) 0, nm (fup F) 0)].
  Definition amp1 (F : frame) (cols : list triple) (j : nat) (x : tens) : res R :=
    bind (left31 F cols j) (fun a => bind (add_middle F a x) (fun b => bind (right31 F cols j) (fun c => closing F b c))).
  Definition amp2 (F : frame) (cols : list triple) (j : nat) (x y : tens) : res R :=
    bind (left31 F cols j) (fun a => bind (add_middle F a x) (fun b =>
    bind (get_or_ub (nth_error cols j)) (fun p => bind (add_last F b (snd p)) (fun c =>
    bind (get_or_ub (nth_error cols (1 + j))) (fun q => bind (add_first F c (fst (fst q))) (fun d =>
    bind (add_middle F d y) (fun e => bind (right31 F cols (1 + j)) (fun f => closing F e f)))))))).
  Definition left_out (F : frame) (cols : list triple) (j : nat) : res tens :=
    bind (left31 F cols j) (fun a => bind (right31 F cols j) (fun c =>
    bind (contract E J a c [(nm (fright F) 1, nm (fleft F) 1); (nm (fright F) 3, nm (fleft F) 3)]) (fun t =>
    Ok (edge_rename t [(nm (fright F) 2, nm (fleft F) 4); (nm (fdown F) 0, nm (fup F) 4); (nm (fup F) 0, nm (fdown F) 4); (nm (fleft F) 2, nm (fright F) 4)])))).

  Theorem amp0_ok : forall F cols ds es, cols_ok F None None None cols ds es None None None -> amp0 F cols = Ok (FV (map (col_of F) cols) one3 0 0 0).
  Proof.
    intros F cols ds es H. unfold amp0. destruct (backward_ok EA MA MD E J HJ F cols None None None ds es H) as [T [-> [T2 T3]]]. cbn [bind].
    rewrite (scalar_ok T _ [(nm (gright F true) (g1 true), 0); (nm (gright F true) 2, 0); (nm (gright F true) (g3 true), 0)] T2).
    - f_equal. apply T3; cbn; lia.
    - intro n. unfold tk, slot. cbn [mfind]. repeat match goal with |- context [if ?c then _ else _] => destruct c end; reflexivity.
  Qed.

  Lemma nth_error_mid : forall (A : Type) (l l' : list A) x, nth_error (l ++ x :: l') (length l) = Some x.
  Proof. intros. rewrite nth_error_app2, Nat.sub_diag by lia. reflexivity. Qed.
  Lemma left31_ok : forall F pre a s c post ds es x y z d x', cols_ok F None None None pre ds es x y z -> has a (sk F None d x x') ->
    exists t T, left31 F (pre ++ (a, s, c) :: post) (length pre) = Ok t /\ has t (hk F false x' y z d) /\
      (forall i j k w, i < size x' -> j < size y -> k < size z -> w < size d -> hf F false t i j k w = Sum (size x) (fun i0 => T i0 j k *r sf F a 0 w i0 i)) /\
      forall K, pair3 (size x) (size y) (size z) T K = FV (map (col_of F) pre) K 0 0 0.
  Proof.
    intros F pre a s c post ds es x y z d x' H Ha. unfold left31. replace (firstn (length pre) _) with pre.
    - destruct (forward_ok EA MA MD E J HJ F pre ds es x y z H) as [T [-> [T2 T3]]]. cbn [bind]. rewrite nth_error_mid. cbn [get_or_ub bind fst].
      destruct (step_1_ok EA E J HJ F false T a x y z d x' T2 Ha) as [t [U1 [U2 U3]]]. exists t, (tf F false T). split; [exact U1|]. split; [exact U2|]. split; [exact U3|exact T3].
    - rewrite firstn_app, Nat.sub_diag, firstn_all. cbn. now rewrite app_nil_r.
  Qed.
  Lemma right31_ok : forall F pre a s c post ds es x y z e z0, cols_ok F x y z post ds es None None None -> has c (sk F e None z0 z) ->
    exists t, right31 F (pre ++ (a, s, c) :: post) (length pre) = Ok t /\ has t (hk F true z0 y x e) /\
      forall i j k w, i < size x -> j < size y -> k < size z0 -> w < size e -> hf F true t k j i w = Sum (size z) (fun k1 => FV (map (col_of F) post) one3 i j k1 *r sf F c w 0 k k1).
  Proof.
    intros F pre a s c post ds es x y z e z0 H Hc. unfold right31. replace (skipn (1 + length pre) _) with post.
    - destruct (backward_ok EA MA MD E J HJ F post x y z ds es H) as [T [-> [T2 T3]]]. cbn [bind]. rewrite nth_error_mid. cbn [get_or_ub bind snd].
      destruct (step_1_ok EA E J HJ F true T c z y x e z0 T2 (turn_has _ _ _ _ _ _ Hc)) as [t [U1 [U2 U3]]]. exists t. split; [exact U1|]. split; [exact U2|].
      intros i j k w Hi Hj Hk Hw. rewrite U3 by assumption. apply Sum_ext. intros k1 Hk1. rewrite T3 by assumption. f_equal. apply (turn_value _ _ _ _ _ _ _ Hc).
    - rewrite skipn_app. replace (1 + length pre - length pre) with 1 by lia. now rewrite (skipn_all2 pre) by lia.
  Qed.
  Lemma pair3_FV_ext : forall F na nb nc T K K' pre, (forall K, pair3 na nb nc T K = FV (map (col_of F) pre) K 0 0 0) -> (forall a b c, a < na -> b < nb -> c < nc -> K a b c = K' a b c) ->
    FV (map (col_of F) pre) K 0 0 0 = FV (map (col_of F) pre) K' 0 0 0.
  Proof. intros F na nb nc T K K' pre H HK. rewrite <- !H. unfold pair3. do 3 (apply Sum_ext; intros ? ?). now rewrite HK. Qed.

  (** the end of amp1 and of amp2 *)
  Lemma ending : forall F t t' c a x s post T K0 x0 y0 z0 x1 y1 z1 d e, has a (sk F None d x0 x1) -> has x (sk F d e y0 y1) -> has c (sk F e None z0 z1) ->
    has t (hk F false x1 y0 z0 d) -> has t' (hk F true z0 y1 x1 e) ->
    (forall i j k w, i < size x1 -> j < size y0 -> k < size z0 -> w < size d -> hf F false t i j k w = Sum (size x0) (fun i0 => T i0 j k *r sf F a 0 w i0 i)) ->
    (forall i j k w, i < size x1 -> j < size y1 -> k < size z0 -> w < size e -> hf F true t' k j i w = Sum (size z1) (fun k1 => K0 i j k1 *r sf F c w 0 k k1)) ->
    s = mkCol (sf F a) (sf F x) (sf F c) (size x1) (size y1) (size z1) (size d) (size e) -> post = K0 ->
    bind (add_middle F t x) (fun b => closing F b t') = Ok (pair3 (size x0) (size y0) (size z0) T (across s post)).
  Proof.
    intros F t t' c a x s post T K0 x0 y0 z0 x1 y1 z1 d e Ha Hx Hc Ht Ht' HT HK -> ->.
    destruct (middle_ok EA E J HJ F false t x x1 y0 z0 d e y1 Ht Hx) as [b [B1 [B2 B3]]]. change (add_middle F t x = Ok b) in B1. rewrite B1. cbn [bind]. unfold closing.
    destruct (close_ok EA E J HJ F b t' x1 y1 z0 e B2 Ht') as [r [-> C2]]. cbn [bind]. rewrite C2. f_equal.
    set (k := mkCol (sf F a) (sf F x) (sf F c) (size x1) (size y1) (size z1) (size d) (size e)).
    transitivity (pair3 (size x0) (size y0) (size z0) T (across (mkCol (ca k) (sf F x) (cc k) (da k) (db k) (dc k) (dx k) (dy k)) K0)); [|reflexivity].
    rewrite <- (close_1 EA MA MD (size x0) (size y0) (size z0) k T (sf F x) K0). cbn [da db dc dx dy ca cs cc k].
    apply Sum_ext; intros i Hi. apply Sum_ext; intros j Hj. apply Sum_ext; intros l Hl. apply Sum_ext; intros w Hw. rewrite (B3 i j l w Hi Hj Hl Hw), (HK i j l w Hi Hj Hl Hw).
    apply (f_equal2 rmul); [|reflexivity]. unfold step2, step1. cbn [ca k]. apply Sum_ext; intros j0 Hj0. apply Sum_ext; intros w0 Hw0. rewrite (HT i j0 l w0) by assumption. reflexivity.
  Qed.

  Theorem amp1_ok : forall F pre a s c post x dp ep x0 y0 z0 d e x1 y1 z1 dq eq_, cols_ok F None None None pre dp ep x0 y0 z0 ->
    has a (sk F None d x0 x1) -> has x (sk F d e y0 y1) -> has c (sk F e None z0 z1) -> cols_ok F x1 y1 z1 post dq eq_ None None None ->
    amp1 F (pre ++ (a, s, c) :: post) (length pre) x = Ok (FV (map (col_of F) (pre ++ (a, x, c) :: post)) one3 0 0 0).
  Proof.
    intros F pre a s c post x dp ep x0 y0 z0 d e x1 y1 z1 dq eq_ Hp Ha Hx Hc Hq. unfold amp1.
    destruct (left31_ok F pre a s c post dp ep x0 y0 z0 d x1 Hp Ha) as [t [T [-> [T2 [T3 T4]]]]]. cbn [bind].
    destruct (right31_ok F pre a s c post dq eq_ x1 y1 z1 e z0 Hq Hc) as [t' [-> [U2 U3]]].
    cbn [bind]. rewrite (ending F t t' c a x _ _ T _ x0 y0 z0 x1 y1 z1 d e Ha Hx Hc T2 U2 T3 U3 eq_refl eq_refl).
    rewrite map_app, FV_app. cbn [map FV]. rewrite (col_of_ok F a x c d e x0 x1 y0 y1 z0 z1 Ha Hx Hc). now rewrite <- T4.
  Qed.
  Theorem amp2_ok : forall F pre a s c a' s' c' post x y dp ep x0 y0 z0 d e x1 y1 z1 d' e' x2 y2 z2 dq eq_, cols_ok F None None None pre dp ep x0 y0 z0 ->
    has a (sk F None d x0 x1) -> has x (sk F d e y0 y1) -> has c (sk F e None z0 z1) ->
    has a' (sk F None d' x1 x2) -> has y (sk F d' e' y1 y2) -> has c' (sk F e' None z1 z2) -> cols_ok F x2 y2 z2 post dq eq_ None None None ->
    amp2 F (pre ++ (a, s, c) :: (a', s', c') :: post) (length pre) x y = Ok (FV (map (col_of F) (pre ++ (a, x, c) :: (a', y, c') :: post)) one3 0 0 0).
  Proof.
    intros F pre a s c a' s' c' post x y dp ep x0 y0 z0 d e x1 y1 z1 d' e' x2 y2 z2 dq eq_ Hp Ha Hx Hc Ha' Hy Hc' Hq. unfold amp2.
    destruct (left31_ok F pre a s c ((a', s', c') :: post) dp ep x0 y0 z0 d x1 Hp Ha) as [t [T [-> [T2 [T3 T4]]]]]. cbn [bind].
    destruct (middle_ok EA E J HJ F false t x x1 y0 z0 d e y1 T2 Hx) as [b [B1 [B2 B3]]]. change (add_middle F t x = Ok b) in B1. rewrite B1. cbn [bind].
    rewrite nth_error_mid. cbn [get_or_ub bind snd].
    destruct (last_ok EA E J HJ F false b c x1 y1 z0 e z1 B2 Hc) as [l [L1 [L2 L3]]]. change (add_last F b c = Ok l) in L1. rewrite L1. cbn [bind].
    replace (nth_error _ (1 + length pre)) with (Some (a', s', c')) by (rewrite nth_error_app2 by lia; now replace (1 + length pre - length pre) with 1 by lia).
    cbn [get_or_ub bind fst].
    destruct (first_ok EA E J HJ F false l a' x1 y1 z1 d' x2 L2 Ha') as [f [F1 [F2 F3]]]. change (add_first F l a' = Ok f) in F1. rewrite F1. cbn [bind].
    destruct (right31_ok F (pre ++ [(a, s, c)]) a' s' c' post dq eq_ x2 y2 z2 e' z1 Hq Hc') as [t' [U1 [U2 U3]]].
    rewrite <- app_assoc, app_length in U1. cbn [app length] in U1. replace (1 + length pre) with (length pre + 1) by lia. rewrite U1. cbn [bind].
    rewrite (ending F f t' c' a' y _ _ (tf F false l) _ x1 y1 z1 x2 y2 z2 d' e' Ha' Hy Hc' F2 U2 F3 U3 eq_refl eq_refl). f_equal.
    rewrite map_app, FV_app. cbn [map FV]. rewrite (col_of_ok F a x c d e x0 x1 y0 y1 z0 z1 Ha Hx Hc), (col_of_ok F a' y c' d' e' x1 x2 y1 y2 z1 z2 Ha' Hy Hc'). rewrite <- T4.
    set (k := mkCol (sf F a) _ _ _ _ _ _ _). rewrite <- (move_step EA MA MD (size x0) (size y0) (size z0) k T _). apply pair3_ext. intros i j m Hi Hj Hm.
    cbn [da db dc k] in *. rewrite (L3 i j m Hi Hj Hm). unfold pull_step, step3. cbn [cc dy k]. apply Sum_ext; intros m0 Hm0. apply Sum_ext; intros w Hw. apply (f_equal2 rmul); [|reflexivity].
    rewrite (B3 i j m0 w Hi Hj Hm0 Hw). unfold step2. cbn [cs dx k]. apply Sum_ext; intros j0 Hj0. apply Sum_ext; intros w0 Hw0. apply (f_equal2 rmul); [|reflexivity]. now apply T3.
  Qed.

  Definition ek (F : frame) (u d l r : option nat) : slots := [(nm (fup F) 4, u); (nm (fdown F) 4, d); (nm (fleft F) 4, l); (nm (fright F) 4, r)].
  Definition ef (F : frame) (t : tens) (u d l r : nat) : R := value t [(nm (fup F) 4, u); (nm (fdown F) 4, d); (nm (fleft F) 4, l); (nm (fright F) 4, r)].
  Theorem hole_ok : forall F pre a s c post dp ep x0 y0 z0 d e x1 y1 z1 dq eq_, cols_ok F None None None pre dp ep x0 y0 z0 ->
    has a (sk F None d x0 x1) -> has c (sk F e None z0 z1) -> cols_ok F x1 y1 z1 post dq eq_ None None None ->
    exists t, left_out F (pre ++ (a, s, c) :: post) (length pre) = Ok t /\ has t (ek F d e y0 y1) /\
      forall f, Sum (size d) (fun u => Sum (size e) (fun w => Sum (size y0) (fun l => Sum (size y1) (fun r => ef F t u w l r *r f u w l r)))) =
        FV (map (col_of F) pre ++ mkCol (sf F a) f (sf F c) (size x1) (size y1) (size z1) (size d) (size e) :: map (col_of F) post) one3 0 0 0.
  Proof.
    intros F pre a s c post dp ep x0 y0 z0 d e x1 y1 z1 dq eq_ Hp Ha Hc Hq. unfold left_out.
    destruct (left31_ok F pre a s c post dp ep x0 y0 z0 d x1 Hp Ha) as [t [T [-> [T2 [T3 T4]]]]]. cbn [bind].
    destruct (right31_ok F pre a s c post dq eq_ x1 y1 z1 e z0 Hq Hc) as [t' [-> [U2 U3]]]. cbn [bind].
    destruct (contract_keys EA E J HJ _ _ _ _ [(nm (fright F) 1, nm (fleft F) 1); (nm (fright F) 3, nm (fleft F) 3)] T2 U2) as [r [R1 [R2 R3]]]; try (now destruct F).
    { destruct F; shape. }
    rewrite R1. cbn [bind]. eexists. split; [reflexivity|].
    match goal with |- has (edge_rename _ ?dict) _ /\ _ => set (D := dict) end.
    assert (ND : nodupb (map (rename_one D) (keys (without (map fst [(nm (fright F) 1, nm (fleft F) 1); (nm (fright F) 3, nm (fleft F) 3)]) (hk F false x1 y0 z0 d) ++ without (map snd [(nm (fright F) 1, nm (fleft F) 1); (nm (fright F) 3, nm (fleft F) 3)]) (hk F true z0 y1 x1 e)))) = true) by (now destruct F).
    split.
    - refine (has_same _ _ _ (rename_keys_has _ _ D R2 ND) _). destruct F; shape.
    - intro f. rewrite FV_app. cbn [FV]. rewrite <- T4.
      transitivity (Sum (size d) (fun u => Sum (size e) (fun w => Sum (size y0) (fun l => Sum (size y1) (fun q => Sum (size x1) (fun i => Sum (size z0) (fun k =>
        Sum (size x0) (fun i0 => T i0 l k *r sf F a 0 u i0 i) *r Sum (size z1) (fun k1 => FV (map (col_of F) post) one3 i q k1 *r sf F c w 0 k k1))) *r f u w l q))))).
      + apply Sum_ext; intros u Hu. apply Sum_ext; intros w Hw. apply Sum_ext; intros l Hl. apply Sum_ext; intros q Hq'. apply (f_equal2 rmul); [|reflexivity]. unfold ef.
        rewrite (rename_keys_value r _ D _ [(nm (fright F) 2, l); (nm (fdown F) 0, u); (nm (fup F) 0, w); (nm (fleft F) 2, q)] R2 ND) by (destruct F; look).
        rewrite R3 by (apply in_slots_all; destruct F; cbn; repeat constructor; cbn; auto). cbn [Sums map].
        replace (slot _ _) with x1 by (destruct F; reflexivity). replace (slot _ _) with z0 by (destruct F; reflexivity).
        apply Sum_ext; intros i Hi. apply Sum_ext; intros k Hk. unfold product. apply (f_equal2 rmul).
        * rewrite <- (T3 i l k u) by assumption. unfold hf. apply (value_keys _ _ _ _ T2). destruct F; look.
        * rewrite <- (U3 i q k w) by assumption. unfold hf. apply (value_keys _ _ _ _ U2). destruct F; look.
      + unfold pair3, across. cbn [ca cs cc da db dc dx dy]. push.
        (* left: u w l q i k i0 k1; right: i0 l k u w i q k1 *)
        rewrite (pull6 EA). apply Sum_ext; intros i0 _. rewrite (pull2 EA). apply Sum_ext; intros l _. rewrite (pull4 EA). apply Sum_ext; intros k _. apply Sum_ext; intros u _. apply Sum_ext; intros w _.
        rewrite (pull1 EA). do 3 (apply Sum_ext; intros ? _). ring.
  Qed.
End StripAmp.
