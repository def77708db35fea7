(** Whole strips, and what the contractions at the end of operator() give. *)
From Coq Require Import String Ascii List Bool Arith Lia Permutation Ring Setoid Morphisms.
From Verif Require Import Base.Outcome Base.SMap Model.Symmetry Model.Edge Model.Core Model.EdgeOperator Model.Contract Model.Misc Model.Qr Model.Svd Model.Auxiliaries
  Spec.Blocks Spec.Relabel Spec.Contract Spec.Plain Spec.Lapack Spec.Grid Spec.Factor Spec.Truncate Spec.Spectrum Spec.Svd Proof.LoopFacts Proof.SumFacts Proof.CoreFacts Proof.ElemFacts Proof.PlainFacts Proof.PlainTools Proof.SumBonds Proof.LineMath Proof.LineTensor Proof.StripTensor.
Import ListNotations.

Section StripFold.
  Context {R : Type} {RR : Scalar R}.
  Notation tens := (tensor unit R).
  Notation triple := (tens * tens * tens)%type.
  Implicit Types t : tens.
  Hypotheses (EA : exact_arithmetic R) (MA : associative_product R) (MD : distributive_product R).
  Variables (E : @env R) (J : internal).
  Hypothesis HJ : NoDup [i_contract_0 J; i_contract_1 J; i_contract_2 J].
  Notation "x *r y" := (rmul x y) (at level 40, left associativity).
  Add Ring scalars3 : (semi_ring EA MA MD).
  Ltac push := repeat (setoid_rewrite (Sum_mul_r EA MD) || setoid_rewrite (Sum_mul_l EA MD)).
  Ltac shape := cbn; repeat constructor.
  Ltac look := cbn; repeat (constructor; [first [right; reflexivity | left; reflexivity | left; assumption]|]); try constructor.

  Lemma unit_has : has (@unit_tensor R RR) [].
  Proof.
    constructor; [|discriminate|reflexivity]. constructor; [|constructor|reflexivity]. constructor.
    - constructor.
    - reflexivity.
    - intros [|i] e s H; discriminate H.
  Qed.
  Lemma unit_value : forall a, value (@unit_tensor R RR) a = rone.
  Proof. reflexivity. Qed.

  Fixpoint cols_ok (F : frame) (x y z : option nat) (cols : list triple) (ds es : list (option nat)) (x' y' z' : option nat) : Prop :=
    match cols, ds, es with
    | [], [], [] => x = x' /\ y = y' /\ z = z'
    | (a, s, c) :: cols, d :: ds, e :: es => exists x1 y1 z1, has a (sk F None d x x1) /\ has s (sk F d e y y1) /\ has c (sk F e None z z1) /\ cols_ok F x1 y1 z1 cols ds es x' y' z'
    | _, _, _ => False
    end.
  Definition col_of (F : frame) (p : triple) : col := let '(a, s, c) := p in
    mkCol (sf F a) (sf F s) (sf F c) (size (dimension a (nm (fright F) 0))) (size (dimension s (nm (fright F) 0))) (size (dimension c (nm (fright F) 0)))
      (size (dimension s (nm (fup F) 0))) (size (dimension s (nm (fdown F) 0))).
  Lemma col_of_ok : forall F a s c d e x x1 y y1 z z1, has a (sk F None d x x1) -> has s (sk F d e y y1) -> has c (sk F e None z z1) ->
    col_of F (a, s, c) = mkCol (sf F a) (sf F s) (sf F c) (size x1) (size y1) (size z1) (size d) (size e).
  Proof.
    intros F a s c d e x x1 y y1 z z1 Ha Hs Hc. unfold col_of. rewrite (h_dim _ _ Ha), !(h_dim _ _ Hs), (h_dim _ _ Hc). now destruct F.
  Qed.
  Lemma cols_ok_app : forall F cols1 cols2 x y z ds es x' y' z', cols_ok F x y z (cols1 ++ cols2) ds es x' y' z' ->
    exists ds1 ds2 es1 es2 x1 y1 z1, ds = ds1 ++ ds2 /\ es = es1 ++ es2 /\ cols_ok F x y z cols1 ds1 es1 x1 y1 z1 /\ cols_ok F x1 y1 z1 cols2 ds2 es2 x' y' z'.
  Proof.
    intros F. induction cols1 as [|[[a s] c] cols1 IH]; intros cols2 x y z ds es x' y' z' H.
    - exists [], ds, [], es, x, y, z. cbn. auto 6.
    - cbn [app cols_ok] in H. destruct ds as [|d ds]; [contradiction|]. destruct es as [|e es]; [contradiction|]. destruct H as [x1 [y1 [z1 [Ha [Hs [Hc H]]]]]].
      destruct (IH _ _ _ _ _ _ _ _ _ H) as [ds1 [ds2 [es1 [es2 [x2 [y2 [z2 [-> [-> [H1 H2]]]]]]]]]].
      exists (d :: ds1), ds2, (e :: es1), es2, x2, y2, z2. split; [reflexivity|]. split; [reflexivity|]. split; [|exact H2]. cbn [cols_ok]. exists x1, y1, z1. auto.
  Qed.

  Definition fstep (F : frame) (b : bool) := (fun t (x : triple) => let '(a, s, c) := x in bind (step_1 E J (gleft F b) (gright F b) (g1 b) t a) (fun t1 => step_3 E J (gleft F b) (gright F b) (gup F b) (gdown F b) (g3 b) t1 s c)).
  Lemma strip_fold : forall F b cols, strip E J (gleft F b) (gright F b) (gup F b) (gdown F b) (g1 b) (g3 b) cols = foldM (fstep F b) cols unit_tensor.
  Proof. reflexivity. Qed.
  Lemma pair3_ext : forall na nb nc (T T' : nat -> nat -> nat -> R) K, (forall a b c, a < na -> b < nb -> c < nc -> T a b c = T' a b c) -> pair3 na nb nc T K = pair3 na nb nc T' K.
  Proof. intros. unfold pair3. do 3 (apply Sum_ext; intros ? ?). now rewrite H. Qed.

  Lemma forward_fold : forall F cols t x y z ds es x' y' z', has t (tk F false x y z) -> cols_ok F x y z cols ds es x' y' z' ->
    exists T, foldM (fstep F false) cols t = Ok T /\ has T (tk F false x' y' z') /\
      forall K, pair3 (size x') (size y') (size z') (tf F false T) K = pair3 (size x) (size y) (size z) (tf F false t) (FV (map (col_of F) cols) K).
  Proof.
    intros F. induction cols as [|[[a s] c] cols IH]; intros t x y z ds es x' y' z' Ht H; destruct ds as [|d ds], es as [|e es]; cbn [cols_ok] in H; try contradiction.
    - destruct H as [-> [-> ->]]. exists t. split; [reflexivity|]. split; [exact Ht|]. reflexivity.
    - destruct H as [x1 [y1 [z1 [Ha [Hs [Hc H]]]]]].
      destruct (step_1_ok EA E J HJ F false t a x y z d x1 Ht Ha) as [t1 [T1 [T2 T3]]].
      destruct (step_3_ok EA E J HJ F false t1 s c x1 y z d e y1 z1 T2 Hs Hc) as [t2 [U1 [U2 U3]]].
      destruct (IH t2 x1 y1 z1 ds es x' y' z' U2 H) as [T [I1 [I2 I3]]].
      exists T. cbn [foldM]. unfold fstep at 1. rewrite T1. cbn [bind]. rewrite U1. cbn [bind]. split; [exact I1|]. split; [exact I2|]. intro K. rewrite I3. cbn [map FV].
      rewrite (col_of_ok F a s c d e x x1 y y1 z z1 Ha Hs Hc). set (k := mkCol _ _ _ _ _ _ _ _).
      rewrite <- (move_step EA MA MD (size x) (size y) (size z) k (tf F false t) _). apply pair3_ext. intros i j l Hi Hj Hl. cbn [da db dc k] in Hi, Hj, Hl.
      rewrite (U3 i j l Hi Hj Hl). unfold pull_step, step3, step2. cbn [cs cc dx dy k]. do 2 (apply Sum_ext; intros ? ?). apply (f_equal2 rmul); [|reflexivity]. do 2 (apply Sum_ext; intros ? ?). apply (f_equal2 rmul); [|reflexivity].
      now apply T3.
  Qed.
  Lemma unit_shape : forall F b, has (@unit_tensor R RR) (tk F b None None None).
  Proof. intros F b. apply (has_same _ _ _ unit_has). destruct F, b; shape. Qed.
  Theorem forward_ok : forall F cols ds es x y z, cols_ok F None None None cols ds es x y z ->
    exists T, strip E J (fleft F) (fright F) (fup F) (fdown F) 1 3 cols = Ok T /\ has T (tk F false x y z) /\
      forall K, pair3 (size x) (size y) (size z) (tf F false T) K = FV (map (col_of F) cols) K 0 0 0.
  Proof.
    intros F cols ds es x y z H. destruct (forward_fold F cols unit_tensor None None None ds es x y z (unit_shape F false) H) as [T [T1 [T2 T3]]].
    exists T. split; [exact T1|]. split; [exact T2|]. intro K. rewrite T3. unfold pair3. cbn [size]. rewrite !(Sum_1 EA). unfold tf. rewrite unit_value. ring.
  Qed.

  Lemma turn_has : forall F t u d l r, has t (sk F u d l r) -> has t (gk F true d u r l).
  Proof. intros F t u d l r H. apply (has_same _ _ _ H). destruct F; shape. Qed.
  Lemma turn_value : forall F t K u d l r, has t K -> gf F true t d u r l = sf F t u d l r.
  Proof.
    intros F t K u d l r H. unfold gf, sf, sa. apply (value_ext t K _ _ H). intros n _. unfold index.
    destruct F; cbn [gup gdown gleft gright fup fdown fleft fright]; unfold nm, code; cbn [mfind Nat.mul Nat.add]; destruct n as [|[|[|[|n]]]]; reflexivity.
  Qed.
  Lemma foldM_app : forall (A B : Type) (f : B -> A -> res B) l l' x, foldM f (l ++ l') x = bind (foldM f l x) (fun y => foldM f l' y).
  Proof. intros A B f l l'. induction l as [|a l IH]; intro x; cbn [app foldM]; [reflexivity|]. destruct (f x a); cbn [bind]; auto. Qed.
  Theorem backward_ok : forall F cols x y z ds es, cols_ok F x y z cols ds es None None None ->
    exists T, strip E J (fright F) (fleft F) (fdown F) (fup F) 3 1 (rev (map Auxiliaries.flip cols)) = Ok T /\ has T (tk F true z y x) /\
      forall i j k, i < size x -> j < size y -> k < size z -> tf F true T k j i = FV (map (col_of F) cols) (fun _ _ _ => rone) i j k.
  Proof.
    intros F. induction cols as [|[[a s] c] cols IH]; intros x y z ds es H; destruct ds as [|d ds], es as [|e es]; cbn [cols_ok] in H; try contradiction.
    - destruct H as [-> [-> ->]]. exists unit_tensor. split; [reflexivity|]. split; [apply unit_shape|]. intros. apply unit_value.
    - destruct H as [x1 [y1 [z1 [Ha [Hs [Hc H]]]]]]. destruct (IH x1 y1 z1 ds es H) as [t [I1 [I2 I3]]].
      destruct (step_1_ok EA E J HJ F true t c z1 y1 x1 e z I2 (turn_has _ _ _ _ _ _ Hc)) as [t1 [T1 [T2 T3]]].
      destruct (step_3_ok EA E J HJ F true t1 s a z y1 x1 e d y x T2 (turn_has _ _ _ _ _ _ Hs) (turn_has _ _ _ _ _ _ Ha)) as [t2 [U1 [U2 U3]]].
      exists t2. cbn [map rev Auxiliaries.flip]. change (strip E J (fright F) (fleft F) (fdown F) (fup F) 3 1) with (fun l => foldM (fstep F true) l unit_tensor) in *. cbv beta in *.
      rewrite foldM_app, I1. cbn [bind foldM]. unfold fstep at 1. rewrite T1. cbn [bind]. rewrite U1. cbn [bind]. split; [reflexivity|]. split; [exact U2|].
      intros i j k Hi Hj Hk. rewrite (U3 k j i Hk Hj Hi). cbn [map FV]. rewrite (col_of_ok F a s c d e x x1 y y1 z z1 Ha Hs Hc). unfold across, step3, step2. cbn [ca cs cc da db dc dx dy].
      transitivity (Sum (size x1) (fun i1 => Sum (size d) (fun w' => Sum (size y1) (fun j1 => Sum (size e) (fun w =>
        (Sum (size z1) (fun k1 => FV (map (col_of F) cols) (fun _ _ _ => rone) i1 j1 k1 *r sf F c w 0 k k1)) *r sf F s w' w j j1)) *r sf F a 0 w' i i1))).
      + apply Sum_ext; intros i1 Hi1. apply Sum_ext; intros w' Hw'. rewrite (turn_value F a _ _ _ _ _ Ha). apply (f_equal2 rmul); [|reflexivity].
        apply Sum_ext; intros j1 Hj1. apply Sum_ext; intros w Hw. rewrite (turn_value F s _ _ _ _ _ Hs). apply (f_equal2 rmul); [|reflexivity]. rewrite T3 by assumption.
        apply Sum_ext; intros k1 Hk1. rewrite (turn_value F c _ _ _ _ _ Hc). apply (f_equal2 rmul); [|reflexivity]. now apply I3.
      + push. rewrite (pull1 EA). apply Sum_ext; intros w' _. rewrite (pull2 EA). apply Sum_ext; intros w _. do 3 (apply Sum_ext; intros ? _). ring.
  Qed.
End StripFold.
