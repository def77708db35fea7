(** Lines of sites: sums over the bonds of a line, and the algebra of strips of two and three lines. *)
From Coq Require Import List Bool Arith Lia Permutation Setoid Morphisms Ring.
From Verif Require Import Model.Core Spec.Contract Spec.Plain Spec.Grid Spec.Svd Proof.SumFacts Proof.PlainFacts Proof.SumBonds.
Import ListNotations.

Section Lines.
  Context {R : Type} {RR : Scalar R}.
  Hypotheses (EA : exact_arithmetic R) (MA : associative_product R) (MD : distributive_product R).
  Notation "x *r y" := (rmul x y) (at level 40, left associativity).
  Notation "x +r y" := (radd x y) (at level 50, left associativity).

  Lemma semi_ring : @semi_ring_theory R rzero rone radd rmul eq.
  Proof.
    constructor.
    - apply (ea_add_0 _ EA).
    - apply (ea_add_comm _ EA).
    - apply (ea_add_assoc _ EA).
    - apply (ea_mul_1 _ EA).
    - apply (ea_mul_0 _ EA).
    - apply (ea_mul_comm _ EA).
    - intros. symmetry. apply MA.
    - intros. apply (mul_distr_r EA MD).
  Qed.
  Add Ring scalars : semi_ring.

  Global Instance Sum_proper : forall n, Proper (pointwise_relation nat eq ==> eq) (@Sum R RR n).
  Proof. intros n f g H. apply Sum_ext. intros i _. apply H. Qed.
  Global Instance Sums_proper : forall ds, Proper (pointwise_relation (list nat) eq ==> eq) (@Sums R RR ds).
  Proof. intros ds f g H. apply Sums_ext. intros l _. apply H. Qed.

  Lemma pull1 : forall n1 n (f : nat -> nat -> R), Sum n1 (fun a => Sum n (fun z => f a z)) = Sum n (fun z => Sum n1 (fun a => f a z)).
  Proof. intros. apply (Sum_swap EA). Qed.
  Lemma pull2 : forall n1 n2 n (f : nat -> nat -> nat -> R), Sum n1 (fun a => Sum n2 (fun b => Sum n (fun z => f a b z))) = Sum n (fun z => Sum n1 (fun a => Sum n2 (fun b => f a b z))).
  Proof. intros. etransitivity; [|apply (Sum_swap EA)]. apply Sum_ext. intros. apply pull1. Qed.
  Lemma pull3 : forall n1 n2 n3 n (f : nat -> nat -> nat -> nat -> R), Sum n1 (fun a => Sum n2 (fun b => Sum n3 (fun c => Sum n (fun z => f a b c z)))) = Sum n (fun z => Sum n1 (fun a => Sum n2 (fun b => Sum n3 (fun c => f a b c z)))).
  Proof. intros. etransitivity; [|apply (Sum_swap EA)]. apply Sum_ext. intros. apply pull2. Qed.
  Lemma pull4 : forall n1 n2 n3 n4 n (f : nat -> nat -> nat -> nat -> nat -> R), Sum n1 (fun a => Sum n2 (fun b => Sum n3 (fun c => Sum n4 (fun d => Sum n (fun z => f a b c d z))))) = Sum n (fun z => Sum n1 (fun a => Sum n2 (fun b => Sum n3 (fun c => Sum n4 (fun d => f a b c d z))))).
  Proof. intros. etransitivity; [|apply (Sum_swap EA)]. apply Sum_ext. intros. apply pull3. Qed.
  Lemma pull5 : forall n1 n2 n3 n4 n5 n (f : nat -> nat -> nat -> nat -> nat -> nat -> R), Sum n1 (fun a => Sum n2 (fun b => Sum n3 (fun c => Sum n4 (fun d => Sum n5 (fun e => Sum n (fun z => f a b c d e z)))))) = Sum n (fun z => Sum n1 (fun a => Sum n2 (fun b => Sum n3 (fun c => Sum n4 (fun d => Sum n5 (fun e => f a b c d e z)))))).
  Proof. intros. etransitivity; [|apply (Sum_swap EA)]. apply Sum_ext. intros. apply pull4. Qed.
  Lemma pull6 : forall n1 n2 n3 n4 n5 n6 n (f : nat -> nat -> nat -> nat -> nat -> nat -> nat -> R), Sum n1 (fun a => Sum n2 (fun b => Sum n3 (fun c => Sum n4 (fun d => Sum n5 (fun e => Sum n6 (fun g => Sum n (fun z => f a b c d e g z))))))) = Sum n (fun z => Sum n1 (fun a => Sum n2 (fun b => Sum n3 (fun c => Sum n4 (fun d => Sum n5 (fun e => Sum n6 (fun g => f a b c d e g z))))))).
  Proof. intros. etransitivity; [|apply (Sum_swap EA)]. apply Sum_ext. intros. apply pull5. Qed.
  Lemma pull7 : forall n1 n2 n3 n4 n5 n6 n7 n (f : nat -> nat -> nat -> nat -> nat -> nat -> nat -> nat -> R), Sum n1 (fun a => Sum n2 (fun b => Sum n3 (fun c => Sum n4 (fun d => Sum n5 (fun e => Sum n6 (fun g => Sum n7 (fun h => Sum n (fun z => f a b c d e g h z)))))))) = Sum n (fun z => Sum n1 (fun a => Sum n2 (fun b => Sum n3 (fun c => Sum n4 (fun d => Sum n5 (fun e => Sum n6 (fun g => Sum n7 (fun h => f a b c d e g h z)))))))).
  Proof. intros. etransitivity; [|apply (Sum_swap EA)]. apply Sum_ext. intros. apply pull6. Qed.
  Lemma pull8 : forall n1 n2 n3 n4 n5 n6 n7 n8 n (f : nat -> nat -> nat -> nat -> nat -> nat -> nat -> nat -> nat -> R), Sum n1 (fun a => Sum n2 (fun b => Sum n3 (fun c => Sum n4 (fun d => Sum n5 (fun e => Sum n6 (fun g => Sum n7 (fun h => Sum n8 (fun k => Sum n (fun z => f a b c d e g h k z))))))))) = Sum n (fun z => Sum n1 (fun a => Sum n2 (fun b => Sum n3 (fun c => Sum n4 (fun d => Sum n5 (fun e => Sum n6 (fun g => Sum n7 (fun h => Sum n8 (fun k => f a b c d e g h k z))))))))).
  Proof. intros. etransitivity; [|apply (Sum_swap EA)]. apply Sum_ext. intros. apply pull7. Qed.
  Lemma out_Sums3 : forall ds n1 n2 n3 (f : nat -> nat -> nat -> list nat -> R),
    Sums ds (fun l => Sum n1 (fun a => Sum n2 (fun b => Sum n3 (fun c => f a b c l)))) = Sum n1 (fun a => Sum n2 (fun b => Sum n3 (fun c => Sums ds (fun l => f a b c l)))).
  Proof.
    intros. rewrite <- (Sum_Sums EA). apply Sum_ext. intros a _. rewrite <- (Sum_Sums EA). apply Sum_ext. intros b _. rewrite <- (Sum_Sums EA). reflexivity.
  Qed.
  Lemma out_Sums2 : forall ds n1 n2 (f : nat -> nat -> list nat -> R),
    Sums ds (fun l => Sum n1 (fun a => Sum n2 (fun b => f a b l))) = Sum n1 (fun a => Sum n2 (fun b => Sums ds (fun l => f a b l))).
  Proof. intros. rewrite <- (Sum_Sums EA). apply Sum_ext. intros a _. rewrite <- (Sum_Sums EA). reflexivity. Qed.

  Ltac push := repeat (setoid_rewrite (Sum_mul_r EA MD) || setoid_rewrite (Sum_mul_l EA MD)).

  (** ** one line: up, down, left, right; the dimension of the bond to the right *)
  Definition sitef := nat -> nat -> nat -> nat -> R.
  Fixpoint LV (fs : list (sitef * nat)) (l : nat) (xs ys : list nat) : R :=
    match fs with
    | [] => rone
    | (f, d) :: fs' => Sum d (fun r => f (hd 0 xs) (hd 0 ys) l r *r LV fs' r (tl xs) (tl ys))
    end.

  (** ** two lines *)
  Definition dsite := ((nat -> nat -> nat -> nat -> nat -> R) * nat * nat)%type.
  Fixpoint LD (fs : list dsite) (l1 l2 : nat) (ys : list nat) : R :=
    match fs with
    | [] => rone
    | (f, d1, d2) :: fs' => Sum d1 (fun r1 => Sum d2 (fun r2 => f l1 l2 r1 r2 (hd 0 ys) *r LD fs' r1 r2 (tl ys)))
    end.
  Definition double (dx : nat) (a s : sitef * nat) : dsite :=
    (fun l1 l2 r1 r2 y => Sum dx (fun x => fst a 0 x l1 r1 *r fst s x y l2 r2), snd a, snd s).
  Fixpoint doubles (dxs : list nat) (A S : list (sitef * nat)) : list dsite :=
    match dxs, A, S with
    | dx :: dxs', a :: A', s :: S' => double dx a s :: doubles dxs' A' S'
    | _, _, _ => []
    end.
  Lemma two_lines : forall dxs A S, length A = length dxs -> length S = length dxs -> forall l1 l2 ys,
    LD (doubles dxs A S) l1 l2 ys = Sums dxs (fun xs => LV A l1 [] xs *r LV S l2 xs ys).
  Proof.
    induction dxs as [|dx dxs IH]; intros [|[fa da] A] [|[fs ds] S] HA HS l1 l2 ys; cbn in HA, HS; try discriminate.
    - cbn [doubles LD Sums LV]. ring.
    - cbn [doubles double LD Sums LV fst snd hd tl].
      transitivity (Sum dx (fun x => Sum da (fun r1 => Sum ds (fun r2 => (fa 0 x l1 r1 *r fs x (hd 0 ys) l2 r2) *r Sums dxs (fun xs => LV A r1 [] xs *r LV S r2 xs (tl ys)))))).
      + rewrite <- pull2. apply Sum_ext. intros r1 _. apply Sum_ext. intros r2 _. rewrite (Sum_mul_r EA MD). apply Sum_ext. intros x _. f_equal. apply IH; lia.
      + apply Sum_ext. intros x _. push. rewrite out_Sums2. apply Sum_ext. intros r1 _. apply Sum_ext. intros r2 _. rewrite (Sums_mul_l EA MD). apply Sums_ext. intros xs _. ring.
  Qed.
  (** the first site has a single bond on the left *)
  Definition LM (f : nat -> nat -> nat -> nat -> R) (d1 d2 : nat) (rest : list dsite) (l : nat) (ys : list nat) : R :=
    Sum d1 (fun r1 => Sum d2 (fun r2 => f l r1 r2 (hd 0 ys) *r LD rest r1 r2 (tl ys))).
  Lemma qr_move : forall f q r dc d1 d2 g e1 e2 rest l ys,
    (forall r1 r2, r1 < d1 -> r2 < d2 -> f l r1 r2 (hd 0 ys) = Sum dc (fun c => q l c (hd 0 ys) *r r c r1 r2)) ->
    LM f d1 d2 ((g, e1, e2) :: rest) l ys =
    Sum dc (fun c => q l c (hd 0 ys) *r LM (fun c r1' r2' y => Sum d1 (fun r1 => Sum d2 (fun r2 => g r1 r2 r1' r2' y *r r c r1 r2))) e1 e2 rest c (tl ys)).
  Proof.
    intros f q r dc d1 d2 g e1 e2 rest l ys Hf. unfold LM. cbn [LD].
    transitivity (Sum d1 (fun r1 => Sum d2 (fun r2 => Sum dc (fun c => q l c (hd 0 ys) *r r c r1 r2) *r Sum e1 (fun r3 => Sum e2 (fun r4 => g r1 r2 r3 r4 (hd 0 (tl ys)) *r LD rest r3 r4 (tl (tl ys))))))).
    - apply Sum_ext. intros r1 H1. apply Sum_ext. intros r2 H2. now rewrite Hf.
    - push. rewrite pull2. apply Sum_ext. intros c _. rewrite <- pull3. rewrite <- pull3. do 4 (apply Sum_ext; intros ? _). ring.
  Qed.
  Lemma svd_move : forall (fa fb u v : sitef) d e dc rest l xs ys,
    (forall r, r < e -> Sum d (fun m => fa (hd 0 xs) (hd 0 ys) l m *r fb (hd 0 (tl xs)) (hd 0 (tl ys)) m r) = Sum dc (fun m => u (hd 0 xs) (hd 0 ys) l m *r v (hd 0 (tl xs)) (hd 0 (tl ys)) m r)) ->
    LV ((fa, d) :: (fb, e) :: rest) l xs ys = LV ((u, dc) :: (v, e) :: rest) l xs ys.
  Proof.
    intros fa fb u v d e dc rest l xs ys H. cbn [LV].
    assert (G : forall (p q : sitef) k, Sum k (fun m => p (hd 0 xs) (hd 0 ys) l m *r Sum e (fun r => q (hd 0 (tl xs)) (hd 0 (tl ys)) m r *r LV rest r (tl (tl xs)) (tl (tl ys)))) =
      Sum e (fun r => Sum k (fun m => p (hd 0 xs) (hd 0 ys) l m *r q (hd 0 (tl xs)) (hd 0 (tl ys)) m r) *r LV rest r (tl (tl xs)) (tl (tl ys)))).
    { intros p q k. push. rewrite pull1. apply Sum_ext. intros r _. apply Sum_ext. intros m _. ring. }
    rewrite !G. apply Sum_ext. intros r Hr. now rewrite H.
  Qed.

  (** ** three lines *)
  Record col := mkCol { ca : sitef; cs : sitef; cc : sitef; da : nat; db : nat; dc : nat; dx : nat; dy : nat }.
  Definition across (k : col) (K : nat -> nat -> nat -> R) (a b c : nat) : R :=
    Sum (dx k) (fun x => Sum (dy k) (fun y => Sum (da k) (fun a' => Sum (db k) (fun b' => Sum (dc k) (fun c' =>
      (ca k 0 x a a' *r (cs k x y b b' *r cc k y 0 c c')) *r K a' b' c'))))).
  Fixpoint FV (cols : list col) (K : nat -> nat -> nat -> R) : nat -> nat -> nat -> R :=
    match cols with [] => K | k :: cols' => across k (FV cols' K) end.
  Lemma three_lines : forall cols a b c,
    FV cols (fun _ _ _ => rone) a b c =
    Sums (map dx cols) (fun xs => Sums (map dy cols) (fun ys =>
      LV (map (fun k => (ca k, da k)) cols) a [] xs *r (LV (map (fun k => (cs k, db k)) cols) b xs ys *r LV (map (fun k => (cc k, dc k)) cols) c ys []))).
  Proof.
    induction cols as [|k cols IH]; intros a b c.
    - cbn [FV map Sums LV]. ring.
    - cbn [FV map Sums LV hd tl]. unfold across. apply Sum_ext. intros x _.
      push. setoid_rewrite out_Sums3. rewrite <- (Sum_Sums EA). apply Sum_ext. intros y _. rewrite out_Sums3. do 3 (apply Sum_ext; intros ? _).
      rewrite IH. rewrite (Sums_mul_l EA MD). apply Sums_ext. intros xs _. rewrite (Sums_mul_l EA MD). apply Sums_ext. intros ys _. ring.
  Qed.
  Lemma FV_ext : forall cols K K' a b c, (forall a b c, K a b c = K' a b c) -> FV cols K a b c = FV cols K' a b c.
  Proof. induction cols as [|k cols IH]; intros K K' a b c H; cbn [FV]; [apply H|]. unfold across. do 5 (apply Sum_ext; intros ? _). f_equal. now apply IH. Qed.
  Lemma FV_app : forall cols cols' K, FV (cols ++ cols') K = FV cols (FV cols' K).
  Proof. induction cols as [|k cols IH]; intros cols' K; cbn [app FV]; [reflexivity|]. now rewrite IH. Qed.

  (** from the left: T carries the bonds a, b, c *)
  Definition pair3 (na nb nc : nat) (T K : nat -> nat -> nat -> R) : R := Sum na (fun a => Sum nb (fun b => Sum nc (fun c => T a b c *r K a b c))).
  Definition step1 (na : nat) (k : col) (T : nat -> nat -> nat -> R) : nat -> nat -> nat -> nat -> R :=
    fun a' b c x => Sum na (fun a => T a b c *r ca k 0 x a a').
  Definition step2 (nb ndx : nat) (s : sitef) (T1 : nat -> nat -> nat -> nat -> R) : nat -> nat -> nat -> nat -> R :=
    fun a' b' c y => Sum nb (fun b => Sum ndx (fun x => T1 a' b c x *r s x y b b')).
  Definition step3 (nc ndy : nat) (f : sitef) (T2 : nat -> nat -> nat -> nat -> R) : nat -> nat -> nat -> R :=
    fun a' b' c' => Sum nc (fun c => Sum ndy (fun y => T2 a' b' c y *r f y 0 c c')).
  Definition pull_step (na nb nc : nat) (k : col) (T : nat -> nat -> nat -> R) : nat -> nat -> nat -> R :=
    step3 nc (dy k) (cc k) (step2 nb (dx k) (cs k) (step1 na k T)).
  Lemma move_step : forall na nb nc k T K, pair3 (da k) (db k) (dc k) (pull_step na nb nc k T) K = pair3 na nb nc T (across k K).
  Proof.
    intros na nb nc k T K. unfold pair3, pull_step, step3, step2, step1, across. push.
    (* left: a' b' c' c y b x a;  right: a b c x y a' b' c' *)
    rewrite pull7. apply Sum_ext; intros a _. rewrite pull5. apply Sum_ext; intros b _. rewrite pull3. apply Sum_ext; intros c _.
    rewrite pull4. apply Sum_ext; intros x _. rewrite pull3. apply Sum_ext; intros y _. do 3 (apply Sum_ext; intros ? _). ring.
  Qed.
  (** from the right *)
  Lemma close_1 : forall na nb nc k T s K,
    Sum (da k) (fun a' => Sum (db k) (fun b' => Sum nc (fun c => Sum (dy k) (fun y =>
      step2 nb (dx k) s (step1 na k T) a' b' c y *r Sum (dc k) (fun c' => K a' b' c' *r cc k y 0 c c'))))) =
    pair3 na nb nc T (across (mkCol (ca k) s (cc k) (da k) (db k) (dc k) (dx k) (dy k)) K).
  Proof.
    intros na nb nc k T s K. unfold pair3, step2, step1, across. cbn [ca cs cc da db dc dx dy]. push.
    (* left: a' b' c y b x a c' *)
    rewrite pull6. apply Sum_ext; intros a _. rewrite pull4. apply Sum_ext; intros b _. rewrite pull2. apply Sum_ext; intros c _.
    rewrite pull3. apply Sum_ext; intros x _. rewrite pull2. apply Sum_ext; intros y _. do 3 (apply Sum_ext; intros ? _). ring.
  Qed.
End Lines.
