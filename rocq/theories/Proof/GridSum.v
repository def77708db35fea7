(** The contraction of a lattice line by line is the sum over all bonds. *)
From Coq Require Import List Bool Arith Lia Permutation Ring Setoid Morphisms.
From Verif Require Import Model.Core Spec.Contract Spec.Plain Spec.Grid Spec.Svd Proof.SumFacts Proof.PlainFacts Proof.SumBonds Proof.LineMath.
Import ListNotations.

Lemma bond_spec : forall a b, reflect (a = b) (bond_eqb a b).
Proof.
  intros [i j|i j] [k l|k l]; cbn; try (constructor; discriminate);
    destruct (Nat.eqb_spec i k) as [<-|]; cbn; try (constructor; congruence); destruct (Nat.eqb_spec j l) as [<-|]; constructor; congruence.
Qed.

Section GridSum.
  Context {R : Type} {RR : Scalar R}.
  Hypotheses (EA : exact_arithmetic R) (MA : associative_product R) (MD : distributive_product R).
  Notation "x *r y" := (rmul x y) (at level 40, left associativity).
  Add Ring scalars7 : (semi_ring EA MA MD).
  Variables (n : nat) (dim : bond -> nat) (site : nat -> nat -> nat -> nat -> nat -> nat -> R).
  Notation Over := (Over bond_eqb dim).
  Notation set := (set bond_eqb).

  Fixpoint ZG (m i : nat) (xs : list nat) : R :=
    match m with
    | 0 => rone
    | S m => Sums (map dim (map (Below i) (seq 0 n))) (fun ys => LV (map (fun j => (site i j, dim (Right_of i j))) (seq 0 n)) 0 xs ys *r ZG m (S i) ys)
    end.

  Definition above (p : bond -> nat) (i j : nat) : nat := match i with 0 => 0 | S i' => p (Below i' j) end.
  Definition before (p : bond -> nat) (i j : nat) : nat := match j with 0 => 0 | S j' => p (Right_of i j') end.
  Lemma site_factor_eq : forall p i j, site_factor site p (i, j) = site i j (above p i j) (p (Below i j)) (before p i j) (p (Right_of i j)).
  Proof. reflexivity. Qed.
  Definition row_prod (i k m : nat) (p : bond -> nat) : R := rprod (map (fun j => site_factor site p (i, j)) (seq k m)).

  Lemma in_rights : forall i k m b, In b (map (Right_of i) (seq k m)) <-> exists j, b = Right_of i j /\ k <= j < k + m.
  Proof. intros. rewrite in_map_iff. split; intros [j [H1 H2]]; exists j; rewrite in_seq in *; auto. Qed.
  Lemma in_belows : forall i k m b, In b (map (Below i) (seq k m)) <-> exists j, b = Below i j /\ k <= j < k + m.
  Proof. intros. rewrite in_map_iff. split; intros [j [H1 H2]]; exists j; rewrite in_seq in *; auto. Qed.

  Lemma row_over : forall m i k p, LV (map (fun j => (site i j, dim (Right_of i j))) (seq k m)) (before p i k) (map (above p i) (seq k m)) (map (fun j => p (Below i j)) (seq k m)) =
    Over (map (Right_of i) (seq k m)) (row_prod i k m) p.
  Proof.
    induction m as [|m IH]; intros i k p; [reflexivity|]. cbn [seq map LV hd tl]. rewrite Over_cons. apply Sum_ext. intros r _.
    set (p' := set p (Right_of i k) r).
    transitivity (site_factor site p' (i, k) *r Over (map (Right_of i) (seq (S k) m)) (row_prod i (S k) m) p').
    - rewrite <- IH. rewrite site_factor_eq. apply (f_equal2 rmul).
      + assert (Ha : above p' i k = above p i k) by (destruct i; reflexivity).
        assert (Hb : before p' i k = before p i k).
        { destruct k as [|k]; [reflexivity|]. cbn. unfold p', SumBonds.set. cbn. destruct (Nat.eqb_spec k (S k)); [lia|]. now rewrite andb_false_r. }
        rewrite Ha, Hb. unfold p'. now rewrite (set_same _ bond_spec).
      + assert (Hr : before p' i (S k) = r) by (cbn; unfold p'; apply (set_same _ bond_spec)). rewrite Hr. reflexivity.
    - symmetry. transitivity (Over (map (Right_of i) (seq (S k) m)) (fun q => site_factor site q (i, k) *r row_prod i (S k) m q) p'); [reflexivity|].
      apply (Over_pull EA MD _ bond_spec dim _ (fun q => site_factor site q (i, k))).
      + intros p1 q1 H. rewrite !site_factor_eq. assert (Hb : forall j, p1 (Below i j) = q1 (Below i j)) by (intro j; apply H; rewrite in_rights; intros [? [? ?]]; discriminate).
        f_equal.
        * destruct i; [reflexivity|]. apply H. rewrite in_rights. intros [? [? ?]]. discriminate.
        * apply Hb.
        * destruct k; [reflexivity|]. apply H. rewrite in_rights. intros [? [E ?]]. injection E as ->. lia.
        * apply H. rewrite in_rights. intros [? [E ?]]. injection E as ->. lia.
  Qed.

  Fixpoint all_bonds (m i : nat) : list bond :=
    match m with 0 => [] | S m => map (Below i) (seq 0 n) ++ map (Right_of i) (seq 0 n) ++ all_bonds m (S i) end.
  Definition grid_prod (m i : nat) (p : bond -> nat) : R := rprod (flat_map (fun i => map (fun j => site_factor site p (i, j)) (seq 0 n)) (seq i m)).

  Lemma in_all : forall m i b, In b (all_bonds m i) <-> exists k j, (b = Below k j \/ b = Right_of k j) /\ i <= k < i + m /\ j < n.
  Proof.
    induction m as [|m IH]; intros i b; cbn [all_bonds].
    - split; [contradiction|]. intros [k [j [_ [? _]]]]. lia.
    - rewrite !in_app_iff, in_belows, in_rights, IH. split.
      + intros [[j [-> ?]]|[[j [-> ?]]|[k [j [H [? ?]]]]]]; [exists i, j|exists i, j|exists k, j]; repeat split; auto; lia.
      + intros [k [j [H [? ?]]]]. destruct (Nat.eq_dec k i) as [->|].
        * destruct H as [->| ->]; [left|right; left]; exists j; split; auto; lia.
        * right. right. exists k, j. repeat split; auto; lia.
  Qed.
  Lemma NoDup_all : forall m i, NoDup (all_bonds m i).
  Proof.
    assert (App : forall (A : Type) (l l' : list A), NoDup l -> NoDup l' -> (forall x, In x l -> ~ In x l') -> NoDup (l ++ l')).
    { intros A l l' Hl Hl' H. induction Hl as [|x l Hx Hl IH]; [exact Hl'|]. cbn. constructor; [rewrite in_app_iff; intros [?|?]; [auto|apply (H x); cbn; auto]|apply IH; intros y Hy; apply H; cbn; auto]. }
    induction m as [|m IH]; intro i; cbn [all_bonds]; [constructor|]. repeat apply App.
    - apply FinFun.Injective_map_NoDup; [intros a b H; now injection H|apply seq_NoDup].
    - apply FinFun.Injective_map_NoDup; [intros a b H; now injection H|apply seq_NoDup].
    - apply IH.
    - intros x Hx Hy. apply in_rights in Hx. apply in_all in Hy. destruct Hx as [j [-> ?]], Hy as [k [j' [[E|E] [? ?]]]]; [discriminate|injection E; lia].
    - intros x Hx Hy. apply in_belows in Hx. destruct Hx as [j [-> ?]]. rewrite in_app_iff, in_rights, in_all in Hy. destruct Hy as [[? [? ?]]|[k [j' [[E|E] [? ?]]]]]; [discriminate|injection E; lia|discriminate].
  Qed.

  Lemma factor_blind : forall i j l, ~ In (Below i j) l -> ~ In (Right_of i j) l -> (forall i', i = S i' -> ~ In (Below i' j) l) -> (forall j', j = S j' -> ~ In (Right_of i j') l) ->
    blind l (fun q => site_factor site q (i, j)).
  Proof.
    intros i j l H1 H2 H3 H4 p q H. rewrite !site_factor_eq. f_equal; try (now apply H).
    - destruct i as [|i]; [reflexivity|]. apply H. now apply H3.
    - destruct j as [|j]; [reflexivity|]. apply H. now apply H4.
  Qed.
  Lemma row_prod_blind : forall i k m l, (forall j, k <= j < k + m -> blind l (fun q => site_factor site q (i, j))) -> blind l (row_prod i k m).
  Proof.
    intros i k m l H p q Hpq. unfold row_prod. f_equal. apply map_ext_in. intros j Hj. apply in_seq in Hj. now apply (H j Hj).
  Qed.
  Lemma grid_prod_blind : forall m i l, (forall k j, i <= k < i + m -> j < n -> blind l (fun q => site_factor site q (k, j))) -> blind l (grid_prod m i).
  Proof.
    intros m i l H p q Hpq. unfold grid_prod. f_equal. rewrite !flat_map_concat_map. f_equal. apply map_ext_in. intros k Hk. apply in_seq in Hk. apply map_ext_in. intros j Hj. apply in_seq in Hj. apply (H k j Hk); [lia|assumption].
  Qed.
  Lemma grid_prod_S : forall m i p, grid_prod (S m) i p = row_prod i 0 n p *r grid_prod m (S i) p.
  Proof. intros. unfold grid_prod, row_prod. cbn [seq flat_map]. apply (rprod_app EA MA). Qed.

  Lemma grid_over : forall m i p, ZG m i (map (above p i) (seq 0 n)) = Over (all_bonds m i) (grid_prod m i) p.
  Proof.
    induction m as [|m IH]; intros i p; [reflexivity|]. cbn [ZG all_bonds]. rewrite Over_app.
    rewrite (Over_map_seq bond_eqb bond_spec dim (map (Below i) (seq 0 n)) _ p) by (apply FinFun.Injective_map_NoDup; [intros a b H; now injection H|apply seq_NoDup]).
    apply (Over_ext bond_eqb bond_spec). intros q Hq.
    replace (map (above p i) (seq 0 n)) with (map (above q i) (seq 0 n)).
    2: { apply map_ext. intro j. destruct i as [|i]; [reflexivity|]. cbn. apply Hq. rewrite in_belows. intros [? [E ?]]. injection E. lia. }
    rewrite !map_map. replace (ZG m (S i) _) with (Over (all_bonds m (S i)) (grid_prod m (S i)) q) by (symmetry; exact (IH (S i) q)).
    pose proof (row_over n i 0 q) as HR. cbn [before] in HR. rewrite HR. clear HR. rewrite Over_app.
    transitivity (Over (map (Right_of i) (seq 0 n)) (fun q' => row_prod i 0 n q' *r Over (all_bonds m (S i)) (grid_prod m (S i)) q') q).
    - transitivity (Over (map (Right_of i) (seq 0 n)) (fun q' => Over (all_bonds m (S i)) (grid_prod m (S i)) q' *r row_prod i 0 n q') q).
      + rewrite (Over_pull EA MD _ bond_spec); [ring|]. apply blind_Over. apply grid_prod_blind. intros k j Hk Hj.
        apply factor_blind; try (intros i' E); try (intros j' E); rewrite in_rights; intros [? [E' ?]]; try discriminate; injection E'; lia.
      + apply (Over_ext bond_eqb bond_spec). intros. ring.
    - apply (Over_ext bond_eqb bond_spec). intros q' _. symmetry. transitivity (Over (all_bonds m (S i)) (fun q'' => row_prod i 0 n q'' *r grid_prod m (S i) q'') q').
      + apply (Over_ext bond_eqb bond_spec). intros q'' _. apply grid_prod_S.
      + apply (Over_pull EA MD _ bond_spec). apply row_prod_blind. intros j Hj.
        apply factor_blind; try (intros i' E); try (intros j' E); rewrite in_all; intros [k [j0 [[E'|E'] [? ?]]]]; try discriminate; injection E'; lia.
  Qed.
  Lemma grid_prod_extensional : forall m i, extensional (grid_prod m i).
  Proof.
    intros m i p q H. unfold grid_prod. f_equal. rewrite !flat_map_concat_map. f_equal. apply map_ext. intro k. apply map_ext. intro j. rewrite !site_factor_eq.
    rewrite !H. destruct k, j; cbn; rewrite ?H; reflexivity.
  Qed.
  Lemma Over_ones : forall ds f p, (forall b, In b ds -> dim b = 1 /\ p b = 0) -> extensional f -> Over ds f p = f p.
  Proof.
    induction ds as [|b ds IH]; intros f p H Hf; [reflexivity|]. rewrite Over_cons. destruct (H b) as [Hb Hp]; [now left|]. rewrite Hb, (Sum_1 EA).
    rewrite (Over_at bond_eqb dim ds f _ p Hf). 
    - apply IH; [|exact Hf]. intros b' Hb'. apply H. now right.
    - intro b'. unfold SumBonds.set. destruct (bond_spec b' b) as [->|]; [now rewrite Hp|reflexivity].
  Qed.
End GridSum.

Section Network.
  Context {R : Type} {RR : Scalar R}.
  Hypotheses (EA : exact_arithmetic R) (MA : associative_product R) (MD : distributive_product R).
  Variable site : nat -> nat -> nat -> nat -> nat -> nat -> R.

  (** bonds at the border do not exist *)
  Definition inner (m n : nat) (b : bond) : bool := match b with Right_of i j => (i <? m) && (1 + j <? n) | Below i j => (1 + i <? m) && (j <? n) end.
  Definition bordered (m n : nat) (dim : bond -> nat) (b : bond) : nat := if inner m n b then dim b else 1.
  Definition border (m n : nat) : list bond := filter (fun b => negb (inner m n b)) (all_bonds n m 0).

  Lemma in_bonds : forall m n b, In b (bonds m n) <-> inner m n b = true.
  Proof.
    intros m n b. unfold bonds, sites, inner. rewrite in_app_iff, !in_map_iff. split.
    - intros [[[i j] [<- H]]|[[i j] [<- H]]]; apply in_flat_map in H; destruct H as [i' [Hi H]]; apply in_map_iff in H; destruct H as [j' [E Hj]]; injection E as -> ->; apply in_seq in Hi, Hj; cbn [fst snd];
        apply andb_true_iff; split; apply Nat.ltb_lt; lia.
    - destruct b as [i j|i j]; rewrite andb_true_iff, !Nat.ltb_lt; intros [H1 H2]; [left|right]; exists (i, j); (split; [reflexivity|]); apply in_flat_map; exists i; (split; [apply in_seq; lia|]); apply in_map_iff; exists j; (split; [reflexivity|apply in_seq; lia]).
  Qed.
  Lemma NoDup_sites : forall m n, NoDup (sites m n).
  Proof.
    intros m n. unfold sites. generalize 0 at 2 as k. induction m as [|m IH]; intro k; [constructor|]. cbn [seq flat_map].
    assert (App : forall (A : Type) (l l' : list A), NoDup l -> NoDup l' -> (forall x, In x l -> ~ In x l') -> NoDup (l ++ l')).
    { intros A l l' Hl Hl' H. induction Hl as [|x l Hx Hl IH']; [exact Hl'|]. cbn. constructor; [rewrite in_app_iff; intros [?|?]; [auto|apply (H x); cbn; auto]|apply IH'; intros y Hy; apply H; cbn; auto]. }
    apply App; [apply FinFun.Injective_map_NoDup; [intros a b H; now injection H|apply seq_NoDup]|apply IH|].
    intros x Hx Hy. apply in_map_iff in Hx. destruct Hx as [j [<- _]]. apply in_flat_map in Hy. destruct Hy as [k' [Hk Hy]]. apply in_map_iff in Hy. destruct Hy as [j' [E _]]. injection E as E1 E2. apply in_seq in Hk. lia.
  Qed.
  Lemma NoDup_bonds : forall m n, NoDup (bonds m n).
  Proof.
    intros m n. unfold bonds.
    assert (App : forall (A : Type) (l l' : list A), NoDup l -> NoDup l' -> (forall x, In x l -> ~ In x l') -> NoDup (l ++ l')).
    { intros A l l' Hl Hl' H. induction Hl as [|x l Hx Hl IH']; [exact Hl'|]. cbn. constructor; [rewrite in_app_iff; intros [?|?]; [auto|apply (H x); cbn; auto]|apply IH'; intros y Hy; apply H; cbn; auto]. }
    apply App; try (apply FinFun.Injective_map_NoDup; [intros [a b] [c d] H; cbn in H; injection H; congruence|apply NoDup_sites]).
    intros x Hx Hy. apply in_map_iff in Hx, Hy. destruct Hx as [? [<- _]], Hy as [? [E _]]. discriminate.
  Qed.
  Lemma Over_dim : forall (dim dim' : bond -> nat) bs (f : (bond -> nat) -> R) p, (forall b, In b bs -> dim b = dim' b) -> Over bond_eqb dim bs f p = Over bond_eqb dim' bs f p.
  Proof. intros dim dim'. induction bs as [|b bs IH]; intros f p H; [reflexivity|]. cbn [Over]. rewrite (H b) by (now left). apply Sum_ext. intros i _. apply IH. intros b' Hb. apply H. now right. Qed.

  Theorem grid_sum : forall m n dim, ZG n (bordered m n dim) site m 0 (repeat 0 n) = network_sum m n dim site.
  Proof.
    intros m n dim. replace (repeat 0 n) with (map (above (fun _ => 0) 0) (seq 0 n)) by (change (map (fun _ : nat => 0) (seq 0 n) = repeat 0 n); generalize 0 at 2 as k; induction n as [|n IH]; intro k; cbn; [reflexivity|f_equal; apply IH]).
    rewrite (grid_over EA MA MD n (bordered m n dim) site m 0).
    rewrite (Over_perm EA bond_eqb bond_spec _ _ (border m n ++ bonds m n)); [|apply NoDup_all| |apply grid_prod_extensional].
    - rewrite Over_app. rewrite (Over_ones EA); [| |apply extensional_Over; apply grid_prod_extensional].
      + unfold network_sum. rewrite (Over_dim (bordered m n dim) dim) by (intros b Hb; unfold bordered; apply in_bonds in Hb; now rewrite Hb).
        apply (Over_ext bond_eqb bond_spec). intros q _. unfold grid_prod, sites. f_equal. rewrite !flat_map_concat_map, concat_map, map_map. f_equal. apply map_ext. intro i. now rewrite map_map.
      + intros b Hb. apply filter_In in Hb. destruct Hb as [_ Hb]. apply negb_true_iff in Hb. unfold bordered. now rewrite Hb.
    - apply NoDup_Permutation; [apply NoDup_all| |].
      + assert (App : forall (A : Type) (l l' : list A), NoDup l -> NoDup l' -> (forall x, In x l -> ~ In x l') -> NoDup (l ++ l')).
        { intros A l l' Hl Hl' H. induction Hl as [|x l Hx Hl IH']; [exact Hl'|]. cbn. constructor; [rewrite in_app_iff; intros [?|?]; [auto|apply (H x); cbn; auto]|apply IH'; intros y Hy; apply H; cbn; auto]. }
        apply App; [apply NoDup_filter, NoDup_all|apply NoDup_bonds|]. intros b Hb Hb'. apply filter_In in Hb. apply in_bonds in Hb'. rewrite Hb' in Hb. now destruct Hb.
      + intro b. rewrite in_app_iff, in_bonds. unfold border. rewrite filter_In, negb_true_iff. split.
        * intro H. destruct (inner m n b); auto.
        * intros [[H _]|H]; [exact H|]. apply in_all. destruct b as [i j|i j]; cbn [inner] in H; apply andb_true_iff in H; rewrite !Nat.ltb_lt in H; exists i, j; repeat split; auto; lia.
  Qed.

  (** ** rows and columns exchanged *)
  Definition mirror (b : bond) : bond := match b with Right_of i j => Below j i | Below i j => Right_of j i end.
  Lemma mirror_mirror : forall b, mirror (mirror b) = b.
  Proof. now intros [i j|i j]. Qed.
  Lemma Over_mirror : forall dim bs (f : (bond -> nat) -> R) p, extensional f ->
    Over bond_eqb (fun b => dim (mirror b)) bs f p = Over bond_eqb dim (map mirror bs) (fun q => f (fun b => q (mirror b))) (fun b => p (mirror b)).
  Proof.
    intros dim. induction bs as [|b bs IH]; intros f p Hf.
    - cbn. apply Hf. intro b. now rewrite mirror_mirror.
    - cbn [map Over]. apply Sum_ext. intros i _. rewrite IH by exact Hf. apply Over_at.
      + intros q1 q2 Hq. apply Hf. intro b'. apply Hq.
      + intro b'. destruct (bond_spec b' (mirror b)) as [->|Hn]; [rewrite mirror_mirror; now destruct (bond_spec b b)|].
        destruct (bond_spec (mirror b') b) as [<-|]; [rewrite mirror_mirror in Hn; contradiction|reflexivity].
  Qed.
  Theorem network_mirror : forall m n dim,
    network_sum n m (fun b => dim (mirror b)) (fun j i l r u d => site i j u d l r) = network_sum m n dim site.
  Proof.
    intros m n dim. unfold network_sum. rewrite Over_mirror.
    - transitivity (Over bond_eqb dim (map mirror (bonds n m)) (fun q => rprod (map (site_factor site q) (sites m n))) (fun _ => 0)).
      + apply (Over_ext bond_eqb bond_spec). intros q _. rewrite (rprod_perm EA MA (map (site_factor site q) (sites m n)) (map (site_factor site q) (map (fun p => (snd p, fst p)) (sites n m)))).
        * f_equal. rewrite map_map. apply map_ext. intros [j i]. unfold site_factor. cbn [fst snd mirror]. destruct i, j; reflexivity.
        * apply Permutation_map. apply NoDup_Permutation; [apply NoDup_sites|apply FinFun.Injective_map_NoDup; [intros [a b] [c d] H; cbn in H; injection H; congruence|apply NoDup_sites]|].
          intros [i j]. rewrite in_map_iff. unfold sites. rewrite in_flat_map. split.
          -- intros [i' [Hi H]]. apply in_map_iff in H. destruct H as [j' [E Hj]]. injection E as -> ->. exists (j, i). split; [reflexivity|]. apply in_flat_map. exists j. split; [exact Hj|]. apply in_map_iff. now exists i.
          -- intros [[j' i'] [E H]]. cbn in E. injection E as -> ->. apply in_flat_map in H. destruct H as [j' [Hj H]]. apply in_map_iff in H. destruct H as [i' [E Hi]]. injection E as -> ->. exists i. split; [exact Hi|]. apply in_map_iff. now exists j.
      + apply (Over_perm EA bond_eqb bond_spec).
        * apply FinFun.Injective_map_NoDup; [intros a b H; rewrite <- (mirror_mirror a), H; apply mirror_mirror|apply NoDup_bonds].
        * apply NoDup_Permutation; [apply FinFun.Injective_map_NoDup; [intros a b H; rewrite <- (mirror_mirror a), H; apply mirror_mirror|apply NoDup_bonds]|apply NoDup_bonds|].
          intro b. rewrite in_map_iff, in_bonds. split.
          -- intros [b' [<- H]]. apply in_bonds in H. destruct b' as [i j|i j]; cbn [inner mirror] in *; now rewrite andb_comm.
          -- intro H. exists (mirror b). split; [apply mirror_mirror|]. apply in_bonds. destruct b as [i j|i j]; cbn [inner mirror] in *; now rewrite andb_comm.
        * intros p q H. f_equal. apply map_ext. intros [i j]. unfold site_factor. rewrite !H. destruct i, j; rewrite ?H; reflexivity.
    - intros p q H. f_equal. apply map_ext. intros [i j]. unfold site_factor. rewrite !H. destruct i, j; rewrite ?H; reflexivity.
  Qed.
End Network.
