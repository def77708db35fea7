(** Ordered keys and std::map as a list of pairs sorted by key. *)
From Coq Require Import List Bool Arith Lia Sorted Permutation.
Import ListNotations.

Class Ord (K : Type) : Type := { cmp : K -> K -> comparison }.

Class OrdLaws (K : Type) {OK : Ord K} : Prop := {
  cmp_eq_iff : forall x y : K, cmp x y = Eq <-> x = y;
  cmp_antisym : forall x y : K, cmp y x = CompOpp (cmp x y);
  cmp_trans : forall x y z : K, cmp x y = Lt -> cmp y z = Lt -> cmp x z = Lt }.

Definition eqb {K : Type} {OK : Ord K} (x y : K) : bool :=
  match cmp x y with Eq => true | _ => false end.
Definition ltb {K : Type} {OK : Ord K} (x y : K) : bool :=
  match cmp x y with Lt => true | _ => false end.

#[global] Instance Ord_nat : Ord nat := { cmp := Nat.compare }.

(** std::vector comparison: lexicographic *)
Fixpoint lex_cmp {K : Type} {OK : Ord K} (l1 l2 : list K) : comparison :=
  match l1, l2 with
  | [], [] => Eq
  | [], _ :: _ => Lt
  | _ :: _, [] => Gt
  | a :: l1', b :: l2' =>
      match cmp a b with Eq => lex_cmp l1' l2' | c => c end
  end.
#[global] Instance Ord_list (K : Type) {OK : Ord K} : Ord (list K) := { cmp := lex_cmp }.

Section Maps.
  Context {K V : Type} {OK : Ord K}.

  (** std::map::find *)
  Fixpoint mfind (k : K) (m : list (K * V)) : option V :=
    match m with
    | [] => None
    | (k', v) :: m' => if eqb k k' then Some v else mfind k m'
    end.

  (** m[k] = v (insert or overwrite) *)
  Fixpoint mset (k : K) (v : V) (m : list (K * V)) : list (K * V) :=
    match m with
    | [] => [(k, v)]
    | (k', v') :: m' =>
        match cmp k k' with
        | Lt => (k, v) :: (k', v') :: m'
        | Eq => (k, v) :: m'
        | Gt => (k', v') :: mset k v m'
        end
    end.

  (** std::map::erase(key) *)
  Fixpoint merase (k : K) (m : list (K * V)) : list (K * V) :=
    match m with
    | [] => []
    | (k', v') :: m' => if eqb k k' then m' else (k', v') :: merase k m'
    end.

  Definition mmem (k : K) (m : list (K * V)) : bool :=
    match mfind k m with Some _ => true | None => false end.

  (** keys strictly ascending: the representation invariant of std::map *)
  Definition msorted (m : list (K * V)) : Prop :=
    StronglySorted (fun a b => cmp a b = Lt) (map fst m).
End Maps.

(** build a map by successive m[k]=v *)
Definition of_list {K V : Type} {OK : Ord K} (l : list (K * V)) : list (K * V) :=
  fold_left (fun m kv => mset (fst kv) (snd kv) m) l [].

Section OrdFacts.
  Context {K : Type} {OK : Ord K} {OL : OrdLaws K}.

  Lemma cmp_refl : forall x : K, cmp x x = Eq.
  Proof. intro x. apply cmp_eq_iff. reflexivity. Qed.

  Lemma eqb_true : forall x y : K, eqb x y = true <-> x = y.
  Proof.
    intros x y. unfold eqb. rewrite <- cmp_eq_iff.
    destruct (cmp x y); split; intro H; congruence.
  Qed.
  Lemma eqb_eq : forall x y : K, eqb x y = true -> x = y.
  Proof. intros. now apply eqb_true. Qed.
  Lemma eqb_false : forall x y : K, eqb x y = false <-> x <> y.
  Proof.
    intros x y. rewrite <- eqb_true. destruct (eqb x y); split; intro; congruence.
  Qed.
  Lemma eqb_refl : forall x : K, eqb x x = true.
  Proof. intro. apply eqb_true. reflexivity. Qed.
  Lemma eqb_sym : forall x y : K, eqb x y = eqb y x.
  Proof.
    intros x y. destruct (eqb x y) eqn:E.
    - apply eqb_true in E. subst. symmetry. apply eqb_refl.
    - apply eqb_false in E. symmetry. apply eqb_false. congruence.
  Qed.
  Lemma ord_dec : forall x y : K, {x = y} + {x <> y}.
  Proof.
    intros x y. destruct (eqb x y) eqn:E; [left; now apply eqb_true | right; now apply eqb_false].
  Qed.
  Lemma lt_irrefl : forall x : K, cmp x x <> Lt.
  Proof. intro x. rewrite cmp_refl. discriminate. Qed.
  Lemma lt_neq : forall x y : K, cmp x y = Lt -> x <> y.
  Proof. intros x y H ->. revert H. apply lt_irrefl. Qed.
  Lemma gt_lt : forall x y : K, cmp x y = Gt -> cmp y x = Lt.
  Proof. intros x y H. rewrite cmp_antisym, H. reflexivity. Qed.
  Lemma lt_gt : forall x y : K, cmp x y = Lt -> cmp y x = Gt.
  Proof. intros x y H. rewrite cmp_antisym, H. reflexivity. Qed.

  Lemma lex_cmp_refl : forall l : list K, lex_cmp l l = Eq.
  Proof. induction l; simpl; auto. now rewrite cmp_refl. Qed.
End OrdFacts.

#[global] Instance OrdLaws_nat : OrdLaws nat.
Proof.
  constructor; simpl; intros.
  - apply Nat.compare_eq_iff.
  - apply Nat.compare_antisym.
  - rewrite Nat.compare_lt_iff in *. lia.
Qed.

#[global] Instance OrdLaws_list (K : Type) {OK : Ord K} {OL : OrdLaws K} : OrdLaws (list K).
Proof.
  constructor; simpl.
  - induction x as [|a x IH]; destruct y as [|b y]; simpl; split; intro H; try congruence.
    + destruct (cmp a b) eqn:E; try discriminate.
      apply cmp_eq_iff in E. apply IH in H. congruence.
    + injection H as -> ->. rewrite cmp_refl. now apply IH.
  - induction x as [|a x IH]; destruct y as [|b y]; simpl; auto.
    rewrite (cmp_antisym a b). destruct (cmp a b); simpl; auto.
  - induction x as [|a x IH]; destruct y as [|b y]; destruct z as [|c z]; simpl; intros H1 H2;
      try congruence.
    destruct (cmp a b) eqn:E1; try discriminate.
    + apply cmp_eq_iff in E1; subst b.
      destruct (cmp a c) eqn:E2; try discriminate; eauto.
    + destruct (cmp b c) eqn:E2; try discriminate.
      * apply cmp_eq_iff in E2; subst c. rewrite E1. reflexivity.
      * rewrite (cmp_trans _ _ _ E1 E2). reflexivity.
Qed.

Section MapFacts.
  Context {K V : Type} {OK : Ord K} {OL : OrdLaws K}.
  Implicit Types m : list (K * V).

  Lemma msorted_nil : msorted (@nil (K*V)).
  Proof. constructor. Qed.

  Lemma msorted_cons_inv : forall k (v : V) m, msorted ((k,v) :: m) ->
    msorted m /\ forall k', In k' (map fst m) -> cmp k k' = Lt.
  Proof.
    unfold msorted. simpl. intros k v m H. apply StronglySorted_inv in H as [H1 H2].
    split; auto. rewrite Forall_forall in H2. auto.
  Qed.

  Lemma msorted_nodup : forall m, msorted m -> NoDup (map fst m).
  Proof.
    induction m as [|[k v] m IH]; intros H; simpl; [constructor|].
    apply msorted_cons_inv in H as [H1 H2]. constructor; auto.
    intro Hin. apply H2 in Hin. revert Hin. apply lt_irrefl.
  Qed.

  Lemma mfind_In : forall m k v, mfind k m = Some v -> In (k, v) m.
  Proof.
    induction m as [|[k' v'] m IH]; simpl; intros k v H; [discriminate|].
    destruct (eqb k k') eqn:E.
    - apply eqb_true in E. subst. injection H as <-. now left.
    - right. auto.
  Qed.

  Lemma mfind_In_key : forall m k v, mfind k m = Some v -> In k (map fst m).
  Proof.
    intros m k v H. apply mfind_In in H. change k with (fst (k,v)). now apply in_map.
  Qed.

  Lemma mfind_None : forall m k, mfind k m = None <-> ~ In k (map fst m).
  Proof.
    induction m as [|[k' v'] m IH]; simpl; intros k; [tauto|].
    destruct (eqb k k') eqn:E.
    - apply eqb_true in E. subst. split; intro H; [discriminate| exfalso; auto].
    - apply eqb_false in E. rewrite IH. intuition.
  Qed.

  Lemma mfind_Some_In : forall m k, In k (map fst m) -> exists v, mfind k m = Some v.
  Proof.
    intros m k H. destruct (mfind k m) eqn:E; eauto. apply mfind_None in E. contradiction.
  Qed.

  Lemma In_mfind_nodup : forall m k v, NoDup (map fst m) -> In (k, v) m -> mfind k m = Some v.
  Proof.
    induction m as [|[k' v'] m IH]; simpl; intros k v Hs H; [contradiction|].
    inversion Hs; subst.
    destruct H as [H|H].
    - injection H as -> ->. now rewrite eqb_refl.
    - destruct (eqb k k') eqn:E.
      + apply eqb_true in E. subst. exfalso. apply H2.
        change k' with (fst (k', v)). now apply in_map.
      + auto.
  Qed.

  Lemma In_mfind : forall m k v, msorted m -> In (k, v) m -> mfind k m = Some v.
  Proof. intros. apply In_mfind_nodup; auto. now apply msorted_nodup. Qed.

  Lemma mset_keys : forall m k v k', In k' (map fst (mset k v m)) <-> k' = k \/ In k' (map fst m).
  Proof.
    induction m as [|[k0 v0] m IH]; simpl; intros k v k'; [intuition|].
    destruct (cmp k k0) eqn:E; simpl.
    - apply cmp_eq_iff in E. subst. intuition.
    - intuition.
    - rewrite IH. intuition.
  Qed.

  Lemma mset_sorted : forall m k v, msorted m -> msorted (mset k v m).
  Proof.
    induction m as [|[k0 v0] m IH]; simpl; intros k v H.
    - constructor; constructor.
    - pose proof H as H0. apply msorted_cons_inv in H as [H1 H2].
      destruct (cmp k k0) eqn:E.
      + apply cmp_eq_iff in E. subst. exact H0.
      + unfold msorted in *. simpl in *. constructor; auto.
        apply Forall_forall. intros x [<-|Hx]; auto.
        eapply cmp_trans; eauto.
      + unfold msorted in *. simpl. constructor; [apply IH; auto|].
        apply Forall_forall. intros x Hx. apply mset_keys in Hx as [->|Hx]; auto.
        now apply gt_lt.
  Qed.

  Lemma mfind_mset_same : forall m k v, mfind k (mset k v m) = Some v.
  Proof.
    induction m as [|[k0 v0] m IH]; simpl; intros k v.
    - now rewrite eqb_refl.
    - destruct (cmp k k0) eqn:E; simpl.
      + now rewrite eqb_refl.
      + now rewrite eqb_refl.
      + unfold eqb at 1. rewrite E. auto.
  Qed.

  Lemma mfind_mset_other : forall m k v k', k' <> k -> mfind k' (mset k v m) = mfind k' m.
  Proof.
    induction m as [|[k0 v0] m IH]; simpl; intros k v k' Hn.
    - apply eqb_false in Hn. now rewrite Hn.
    - destruct (cmp k k0) eqn:E; simpl.
      + apply cmp_eq_iff in E. subst. apply eqb_false in Hn. now rewrite Hn.
      + apply eqb_false in Hn. now rewrite Hn.
      + destruct (eqb k' k0); auto.
  Qed.

  Lemma mset_app_max : forall m k v,
    (forall k', In k' (map fst m) -> cmp k' k = Lt) -> mset k v m = m ++ [(k, v)].
  Proof.
    induction m as [|[k0 v0] m IH]; simpl; intros k v H; [reflexivity|].
    rewrite (lt_gt k0 k) by (apply H; auto).
    rewrite IH; auto.
  Qed.

  Lemma merase_keys : forall m k k', msorted m ->
    (In k' (map fst (merase k m)) <-> k' <> k /\ In k' (map fst m)).
  Proof.
    induction m as [|[k0 v0] m IH]; simpl; intros k k' H; [intuition|].
    apply msorted_cons_inv in H as [H1 H2].
    destruct (eqb k k0) eqn:E; simpl.
    - apply eqb_true in E. subst. split.
      + intro Hin. split; [|now right]. intros ->. apply H2 in Hin. now apply lt_irrefl in Hin.
      + intros [Hn [He|Hin]]; congruence.
    - apply eqb_false in E. rewrite IH by auto. split.
      + intros [->|[Hn Hin]]; auto.
      + intros [Hn [He|Hin]]; auto.
  Qed.

  Lemma merase_sorted : forall m k, msorted m -> msorted (merase k m).
  Proof.
    induction m as [|[k0 v0] m IH]; simpl; intros k H; auto.
    pose proof H as H0. apply msorted_cons_inv in H as [H1 H2].
    destruct (eqb k k0) eqn:E; auto.
    unfold msorted. simpl. constructor; [apply IH; auto|].
    apply Forall_forall. intros x Hx. apply merase_keys in Hx as [_ Hx]; auto.
  Qed.

  Lemma merase_filter : forall m k, msorted m ->
    merase k m = filter (fun kv => negb (eqb k (fst kv))) m.
  Proof.
    induction m as [|[k0 v0] m IH]; simpl; intros k H; auto.
    apply msorted_cons_inv in H as [H1 H2].
    destruct (eqb k k0) eqn:E; simpl.
    - apply eqb_true in E. subst.
      clear IH H1. induction m as [|[k1 v1] m IH]; simpl; auto.
      assert (Hlt : cmp k0 k1 = Lt) by (apply H2; simpl; auto).
      assert (E2 : eqb k0 k1 = false) by (apply eqb_false; now apply lt_neq).
      rewrite E2. simpl. f_equal. apply IH. intros; apply H2; simpl; auto.
    - f_equal. auto.
  Qed.

  Lemma msorted_filter : forall m f, msorted m -> msorted (filter f m).
  Proof.
    induction m as [|[k0 v0] m IH]; simpl; intros f H; auto.
    apply msorted_cons_inv in H as [H1 H2].
    destruct (f (k0,v0)); auto.
    unfold msorted. simpl. constructor; [apply IH; auto|].
    apply Forall_forall. intros x Hx. apply H2.
    rewrite in_map_iff in *. destruct Hx as [[a b] [<- Hx]]. apply filter_In in Hx as [Hx _].
    now exists (a, b).
  Qed.

  (** a sorted map is determined by its lookups *)
  Lemma msorted_ext : forall m1 m2, msorted m1 -> msorted m2 ->
    (forall k, mfind k m1 = mfind k m2) -> m1 = m2.
  Proof.
    induction m1 as [|[k1 v1] m1 IH]; intros [|[k2 v2] m2] H1 H2 He.
    - reflexivity.
    - specialize (He k2). simpl in He. rewrite eqb_refl in He. discriminate.
    - specialize (He k1). simpl in He. rewrite eqb_refl in He. discriminate.
    - pose proof H1 as H1'. pose proof H2 as H2'.
      apply msorted_cons_inv in H1 as [H1 L1]. apply msorted_cons_inv in H2 as [H2 L2].
      assert (k1 = k2).
      { destruct (cmp k1 k2) eqn:E.
        - now apply cmp_eq_iff.
        - exfalso. pose proof (He k1) as Hk. simpl in Hk. rewrite eqb_refl in Hk.
          assert (E2 : eqb k1 k2 = false) by (apply eqb_false; now apply lt_neq).
          rewrite E2 in Hk. symmetry in Hk. apply mfind_In_key in Hk. apply L2 in Hk.
          apply (lt_irrefl k1). eapply cmp_trans; eauto.
        - exfalso. apply gt_lt in E. pose proof (He k2) as Hk. simpl in Hk. rewrite eqb_refl in Hk.
          assert (E2 : eqb k2 k1 = false) by (apply eqb_false; now apply lt_neq).
          rewrite E2 in Hk. apply mfind_In_key in Hk. apply L1 in Hk.
          apply (lt_irrefl k2). eapply cmp_trans; eauto. }
      subst k2.
      assert (v1 = v2).
      { specialize (He k1). simpl in He. rewrite eqb_refl in He. congruence. }
      subst v2. f_equal. apply IH; auto.
      intro k. specialize (He k). simpl in He.
      destruct (eqb k k1) eqn:E; auto.
      apply eqb_true in E. subst.
      assert (Hn1 : mfind k1 m1 = None).
      { apply mfind_None. intro Hin. apply L1 in Hin. now apply lt_irrefl in Hin. }
      assert (Hn2 : mfind k1 m2 = None).
      { apply mfind_None. intro Hin. apply L2 in Hin. now apply lt_irrefl in Hin. }
      congruence.
  Qed.

  Lemma of_list_sorted_gen : forall (l : list (K*V)) m, msorted m ->
    msorted (fold_left (fun m kv => mset (fst kv) (snd kv) m) l m).
  Proof.
    induction l as [|[k v] l IH]; simpl; intros m H; auto. apply IH. now apply mset_sorted.
  Qed.
  Lemma of_list_sorted : forall (l : list (K*V)), msorted (of_list l).
  Proof. intros. apply of_list_sorted_gen. apply msorted_nil. Qed.

  Lemma of_list_id_gen : forall (l : list (K*V)) m, msorted (m ++ l) ->
    fold_left (fun m kv => mset (fst kv) (snd kv) m) l m = m ++ l.
  Proof.
    induction l as [|[k v] l IH]; simpl; intros m H.
    - now rewrite app_nil_r.
    - rewrite mset_app_max.
      + rewrite IH; rewrite <- app_assoc; auto.
      + intros k' Hk'. clear IH. induction m as [|[k0 v0] m IHm]; simpl in *; [contradiction|].
        apply msorted_cons_inv in H as [H1 H2].
        destruct Hk' as [<-|Hk']; auto.
        apply H2. rewrite map_app. apply in_or_app. right. simpl. now left.
  Qed.
  Lemma of_list_id : forall (l : list (K*V)), msorted l -> of_list l = l.
  Proof. intros l H. unfold of_list. now rewrite of_list_id_gen. Qed.
End MapFacts.
