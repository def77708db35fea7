(** Sums over the indices of labelled bonds. *)
From Coq Require Import List Bool Arith Lia Permutation.
From Verif Require Import Model.Core Spec.Contract Spec.Plain Spec.Grid Spec.Svd Proof.SumFacts Proof.PlainFacts.
Import ListNotations.

Section Ring.
  Context {R : Type} {RR : Scalar R}.
  Hypotheses (EA : exact_arithmetic R) (MA : associative_product R) (MD : distributive_product R).
  Notation "x *r y" := (rmul x y) (at level 40, left associativity).
  Notation "x +r y" := (radd x y) (at level 50, left associativity).

  Lemma mul_swap : forall a b c : R, a *r (b *r c) = b *r (a *r c).
  Proof. intros a b c. rewrite <- !MA. f_equal. apply (ea_mul_comm _ EA). Qed.
  Lemma mul_1_r : forall a : R, a *r rone = a.
  Proof. intro a. rewrite (ea_mul_comm _ EA). apply (ea_mul_1 _ EA). Qed.
  Lemma mul_distr_r : forall x y z : R, (x +r y) *r z = x *r z +r y *r z.
  Proof. intros. rewrite (ea_mul_comm _ EA), MD. f_equal; apply (ea_mul_comm _ EA). Qed.

  Lemma rsum_mul_l : forall (c : R) l, c *r rsum l = rsum (map (fun x => c *r x) l).
  Proof. intros c l. induction l as [|x l IH]; cbn [map rsum fold_right]; [rewrite (ea_mul_comm _ EA); apply (ea_mul_0 _ EA)|]. rewrite MD. f_equal. exact IH. Qed.
  Lemma Sum_mul_l : forall n (c : R) f, c *r Sum n f = Sum n (fun i => c *r f i).
  Proof. intros. unfold Sum. rewrite rsum_mul_l, map_map. reflexivity. Qed.
  Lemma Sum_mul_r : forall n (c : R) f, Sum n f *r c = Sum n (fun i => f i *r c).
  Proof. intros. rewrite (ea_mul_comm _ EA), Sum_mul_l. apply Sum_ext. intros. apply (ea_mul_comm _ EA). Qed.
  Lemma Sums_mul_l : forall ds (c : R) f, c *r Sums ds f = Sums ds (fun l => c *r f l).
  Proof. induction ds as [|d ds IH]; intros c f; cbn [Sums]; [reflexivity|]. rewrite Sum_mul_l. apply Sum_ext. intros i _. apply IH. Qed.
  Lemma Sums_mul_r : forall ds (c : R) f, Sums ds f *r c = Sums ds (fun l => f l *r c).
  Proof. intros. rewrite (ea_mul_comm _ EA), Sums_mul_l. apply Sums_ext. intros. apply (ea_mul_comm _ EA). Qed.

  Lemma rsum_add : forall (A : Type) (f g : A -> R) l, rsum (map (fun x => f x +r g x) l) = rsum (map f l) +r rsum (map g l).
  Proof.
    intros A f g l. induction l as [|x l IH]; cbn [map rsum fold_right]; [now rewrite (ea_add_0 _ EA)|].
    fold (rsum (map (fun x => f x +r g x) l)) (rsum (map f l)) (rsum (map g l)). rewrite IH. rewrite !(ea_add_assoc _ EA). f_equal.
    rewrite <- !(ea_add_assoc _ EA). f_equal. apply (ea_add_comm _ EA).
  Qed.
  Lemma Sum_zero : forall n, Sum n (fun _ => rzero : R) = rzero.
  Proof. intro n. unfold Sum. induction (seq 0 n) as [|i l IH]; [reflexivity|]. cbn [map rsum fold_right]. fold (rsum (map (fun _ : nat => rzero : R) l)). rewrite IH. apply (ea_add_0 _ EA). Qed.
  Lemma Sum_swap : forall n m (f : nat -> nat -> R), Sum n (fun i => Sum m (fun j => f i j)) = Sum m (fun j => Sum n (fun i => f i j)).
  Proof.
    intros n m f. unfold Sum at 1 4. 
    assert (G : forall l, rsum (map (fun i => Sum m (fun j => f i j)) l) = Sum m (fun j => rsum (map (fun i => f i j) l))).
    { induction l as [|i l IH]; cbn [map rsum fold_right]; [symmetry; apply Sum_zero|].
      fold (rsum (map (fun i => Sum m (fun j => f i j)) l)). rewrite IH. unfold Sum. symmetry. rewrite <- rsum_add. apply rsum_ext. reflexivity. }
    apply G.
  Qed.
  Lemma Sum_Sums : forall n ds (f : nat -> list nat -> R), Sum n (fun i => Sums ds (f i)) = Sums ds (fun l => Sum n (fun i => f i l)).
  Proof.
    intros n ds. induction ds as [|d ds IH]; intro f; cbn [Sums]; [reflexivity|]. rewrite Sum_swap. apply Sum_ext. intros j _. exact (IH (fun i l => f i (j :: l))).
  Qed.
  Lemma Sums_Sums : forall ds es (f : list nat -> list nat -> R), Sums ds (fun x => Sums es (f x)) = Sums es (fun y => Sums ds (fun x => f x y)).
  Proof.
    induction ds as [|d ds IH]; intros es f; cbn [Sums]; [reflexivity|]. rewrite <- Sum_Sums. apply Sum_ext. intros i _. exact (IH es (fun l => f (i :: l))).
  Qed.
  Lemma Sums_app : forall ds es (f : list nat -> R), Sums (ds ++ es) f = Sums ds (fun x => Sums es (fun y => f (x ++ y))).
  Proof. induction ds as [|d ds IH]; intros es f; cbn [app Sums]; [reflexivity|]. apply Sum_ext. intros i _. apply IH. Qed.

  (** ** labelled bonds *)
  Section Labels.
    Context {B : Type} (same : B -> B -> bool).
    Hypothesis same_spec : forall a b, reflect (a = b) (same a b).
    Variable dim : B -> nat.
    Notation Over := (Over same dim).
    Definition set (at_ : B -> nat) (b : B) (i : nat) : B -> nat := fun b' => if same b' b then i else at_ b'.
    Definition extensional (f : (B -> nat) -> R) : Prop := forall p q, (forall b, p b = q b) -> f p = f q.
    (** f looks at no label of l *)
    Definition blind (l : list B) (f : (B -> nat) -> R) : Prop := forall p q, (forall b, ~ In b l -> p b = q b) -> f p = f q.

    Lemma set_same : forall p b i, set p b i b = i.
    Proof. intros. unfold set. now destruct (same_spec b b). Qed.
    Lemma set_other : forall p b i c, c <> b -> set p b i c = p c.
    Proof. intros p b i c H. unfold set. now destruct (same_spec c b). Qed.

    Lemma Over_cons : forall b bs f p, Over (b :: bs) f p = Sum (dim b) (fun i => Over bs f (set p b i)).
    Proof. reflexivity. Qed.
    Lemma Over_ext : forall bs f g p, (forall q, (forall b, ~ In b bs -> q b = p b) -> f q = g q) -> Over bs f p = Over bs g p.
    Proof.
      induction bs as [|b bs IH]; intros f g p H; [apply H; reflexivity|]. rewrite !Over_cons. apply Sum_ext. intros i _. apply IH. intros q Hq. apply H.
      intros c Hc. rewrite Hq by (intro; apply Hc; now right). apply set_other. intros ->. apply Hc. now left.
    Qed.
    (** also knowing that the indices are in range *)
    Lemma Over_ext_range : forall bs f g p, NoDup bs -> (forall q, (forall b, ~ In b bs -> q b = p b) -> (forall b, In b bs -> q b < dim b) -> f q = g q) -> Over bs f p = Over bs g p.
    Proof.
      induction bs as [|b bs IH]; intros f g p Hn H; [apply H; [reflexivity|intros ? []]|]. apply NoDup_cons_iff in Hn as [Hb Hn]. rewrite !Over_cons. apply Sum_ext. intros i Hi. apply IH; [exact Hn|]. intros q Hq Hr. apply H.
      - intros c Hc. rewrite Hq by (intro; apply Hc; now right). apply set_other. intros ->. apply Hc. now left.
      - intros c [->|Hc]; [|now apply Hr]. rewrite (Hq c Hb), set_same. exact Hi.
    Qed.
    Lemma Over_at : forall bs f p q, extensional f -> (forall b, p b = q b) -> Over bs f p = Over bs f q.
    Proof.
      induction bs as [|b bs IH]; intros f p q Hf H; [now apply Hf|]. rewrite !Over_cons. apply Sum_ext. intros i _. apply IH; [exact Hf|].
      intro c. unfold set. now rewrite H.
    Qed.
    Lemma Over_blind_at : forall bs l f p q, blind l f -> (forall b, ~ In b l -> p b = q b) -> Over bs f p = Over bs f q.
    Proof.
      induction bs as [|b bs IH]; intros l f p q Hf H; [now apply Hf|]. rewrite !Over_cons. apply Sum_ext. intros i _. apply (IH l); [exact Hf|].
      intros c Hc. unfold set. now rewrite H.
    Qed.
    Lemma Over_app : forall bs cs f p, Over (bs ++ cs) f p = Over bs (fun q => Over cs f q) p.
    Proof. induction bs as [|b bs IH]; intros cs f p; [reflexivity|]. cbn [app]. rewrite !Over_cons. apply Sum_ext. intros i _. apply IH. Qed.
    Lemma Over_mul_l : forall bs (c : R) f p, c *r Over bs f p = Over bs (fun q => c *r f q) p.
    Proof. induction bs as [|b bs IH]; intros c f p; [reflexivity|]. rewrite !Over_cons, Sum_mul_l. apply Sum_ext. intros i _. apply IH. Qed.
    (** a factor that does not look at the bonds summed over *)
    Lemma Over_pull : forall bs g f p, blind bs g -> Over bs (fun q => g q *r f q) p = g p *r Over bs f p.
    Proof. intros bs g f p Hg. rewrite Over_mul_l. apply Over_ext. intros q Hq. f_equal. now apply Hg. Qed.
    Lemma extensional_Over : forall bs f, extensional f -> extensional (fun q => Over bs f q).
    Proof. intros bs f Hf p q H. now apply Over_at. Qed.
    Lemma blind_Over : forall bs l f, blind l f -> blind l (fun q => Over bs f q).
    Proof. intros bs l f Hf p q H. exact (Over_blind_at bs l f p q Hf H). Qed.
    (** nor does the sum look at its own bonds *)
    Lemma blind_own : forall bs f, extensional f -> blind bs (fun q => Over bs f q).
    Proof.
      induction bs as [|b bs IH]; intros f Hf p q H; [apply Hf; intro b; apply H; intros []|]. rewrite !Over_cons. apply Sum_ext. intros i _. apply (IH f Hf).
      intros c Hc. unfold set. destruct (same_spec c b) as [->|N]; [reflexivity|]. apply H. intros [->|X]; auto.
    Qed.
    Lemma Over_perm : forall bs cs f p, NoDup bs -> Permutation bs cs -> extensional f -> Over bs f p = Over cs f p.
    Proof.
      intros bs cs f p Hn HP Hf. revert p. induction HP as [|b bs cs HP IH|b c bs|bs cs ds HP1 IH1 HP2 IH2]; intro p.
      - reflexivity.
      - rewrite !Over_cons. apply Sum_ext. intros i _. apply IH. now apply NoDup_cons_iff in Hn.
      - rewrite !Over_cons. cbn [Grid.Over]. rewrite Sum_swap. apply Sum_ext. intros i _. apply Sum_ext. intros j _. apply Over_at; [exact Hf|].
        assert (Hbc : c <> b) by (intros ->; apply NoDup_cons_iff in Hn as [Hx _]; apply Hx; now left).
        intro e. unfold set. destruct (same_spec e b) as [Hb|Hb]; destruct (same_spec e c) as [Hc|Hc]; try reflexivity. congruence.
      - rewrite IH1 by exact Hn. apply IH2. exact (Permutation_NoDup HP1 Hn).
    Qed.
    Lemma Over_map_seq : forall vs (F : list nat -> R) p, NoDup vs -> Sums (map dim vs) F = Over vs (fun q => F (map q vs)) p.
    Proof.
      induction vs as [|v vs IH]; intros F p Hn; [reflexivity|]. apply NoDup_cons_iff in Hn as [Hv Hn]. cbn [map Sums]. rewrite Over_cons. apply Sum_ext. intros i _.
      rewrite (IH (fun l => F (i :: l)) (set p v i) Hn). apply Over_ext. intros q Hq. cbn [map]. rewrite (Hq v Hv), set_same. reflexivity.
    Qed.
  End Labels.

  Lemma rprod_app : forall l l' : list R, rprod (l ++ l') = rprod l *r rprod l'.
  Proof. intros l l'. induction l as [|x l IH]; cbn [app rprod fold_right]; [symmetry; apply (ea_mul_1 _ EA)|]. fold (rprod (l ++ l')) (rprod l). rewrite IH. symmetry. apply MA. Qed.
  Lemma rprod_perm : forall l l' : list R, Permutation l l' -> rprod l = rprod l'.
  Proof.
    intros l l' H. induction H as [|x l l' _ IH|x y l|l l' l'' _ IH1 _ IH2]; cbn [rprod fold_right]; [reflexivity| | |congruence].
    - f_equal. exact IH.
    - apply mul_swap.
  Qed.
End Ring.
