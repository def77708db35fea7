(** Counted pointers count: facts on the state of Model/Cow.v. *)
From Coq Require Import List Bool Arith Lia.
From Verif Require Import Base.Outcome Base.SMap Model.Symmetry Model.Edge Model.Core Model.EdgeOperator
  Model.Elementwise Model.Cow.
Import ListNotations.

Section MapMore.
  Context {K V : Type} {OK : Ord K} {OL : OrdLaws K}.
  Lemma mfind_merase_same : forall (m : list (K * V)) k, msorted m -> mfind k (merase k m) = None.
  Proof. intros m k H. apply mfind_None. rewrite merase_keys by assumption. tauto. Qed.
  Lemma mfind_merase_other : forall (m : list (K * V)) k k', k' <> k -> mfind k' (merase k m) = mfind k' m.
  Proof.
    induction m as [|[k0 v0] m IH]; simpl; intros k k' H; auto.
    destruct (eqb k k0) eqn:E.
    - apply eqb_eq in E. subst. destruct (eqb k' k0) eqn:E2; auto. apply eqb_eq in E2. congruence.
    - simpl. destruct (eqb k' k0); auto.
  Qed.
End MapMore.

Section Cow.
  Context {S R : Type} {SS : Sym S} {RR : Scalar R}.
  Notation state := (@state S R).
  Implicit Types st : state.

  Definition hit (a : nat) (o : option handle) : nat :=
    match o with Some h => if Nat.eqb (h_core h) a then 1 else 0 | None => 0 end.
  Fixpoint count (a : nat) (m : list (nat * handle)) : nat :=
    match m with [] => 0 | (_, h) :: m' => hit a (Some h) + count a m' end.

  Lemma count_mset : forall a x h m, msorted m ->
    count a (mset x h m) + hit a (mfind x m) = count a m + hit a (Some h).
  Proof.
    induction m as [|[k o] m IH]; intro Hs.
    - simpl. lia.
    - apply msorted_cons_inv in Hs as [H1 H2]. specialize (IH H1).
      cbn [mset mfind]. unfold eqb. destruct (cmp x k) eqn:C; cbn [count].
      + lia.
      + assert (mfind x m = None) as ->; [|simpl; lia].
        apply mfind_None. intro Hin. apply H2 in Hin.
        pose proof (cmp_trans _ _ _ C Hin) as T. now apply lt_irrefl in T.
      + lia.
  Qed.
  Lemma count_merase : forall a x m, count a (merase x m) + hit a (mfind x m) = count a m.
  Proof.
    induction m as [|[k o] m IH]; [reflexivity|]. cbn [merase mfind].
    destruct (eqb x k); cbn [count]; lia.
  Qed.
  Lemma count_pos : forall a x h m, mfind x m = Some h -> h_core h = a -> 0 < count a m.
  Proof.
    induction m as [|[k o] m IH]; intros H1 H2; [discriminate|]. cbn [mfind] in H1. cbn [count].
    destruct (eqb x k).
    - injection H1 as ->. simpl. rewrite H2, Nat.eqb_refl. lia.
    - specialize (IH H1 H2). lia.
  Qed.

  Ltac fields := cbn [st_heap st_vars st_refs st_next with_heap with_vars alloc snd].
  Definition occ (a : nat) (l : list nat) : nat := count_occ Nat.eq_dec l a.

  (** every pointer is counted: those of the variables and those, T, the statement being executed holds *)
  Record inv (T : list nat) (st : state) : Prop := {
    inv_heap : msorted (st_heap st);
    inv_vars : msorted (st_vars st);
    inv_count : forall a n c, mfind a (st_heap st) = Some (n, c) -> n = count a (st_vars st) + occ a T /\ 0 < n;
    inv_alive : forall a, 0 < count a (st_vars st) + occ a T -> mfind a (st_heap st) <> None;
    inv_next : forall a, mfind a (st_heap st) <> None -> a < st_next st;
    inv_refs : forall r l, mfind r (st_refs st) = Some l -> fst (fst l) < st_next st }.

  Lemma inv_empty : inv [] empty_state.
  Proof. constructor; simpl; try constructor; try discriminate; intros; try lia; congruence. Qed.

  (** the contents at an address *)
  Definition cell st (a : nat) : option (core S R) := option_map snd (mfind a (st_heap st)).

  Lemma read_cell : forall st x, read st x =
    match mfind x (st_vars st) with
    | None => None
    | Some h => option_map (mkTensor (h_names h)) (cell st (h_core h))
    end.
  Proof.
    intros. unfold read, cell. destruct (mfind x (st_vars st)) as [h|]; auto.
    destruct (mfind (h_core h) (st_heap st)) as [[n c]|]; reflexivity.
  Qed.

  Lemma var_alive : forall T st x h, inv T st -> mfind x (st_vars st) = Some h ->
    exists n c, mfind (h_core h) (st_heap st) = Some (n, c).
  Proof.
    intros T st x h I H. destruct (mfind (h_core h) (st_heap st)) as [[n c]|] eqn:Em; eauto.
    exfalso. refine (inv_alive _ _ I (h_core h) _ Em). pose proof (count_pos (h_core h) x h _ H eq_refl). lia.
  Qed.
  Lemma temp_alive : forall T st a, inv (a :: T) st -> exists n c, mfind a (st_heap st) = Some (n, c).
  Proof.
    intros T st a I. destruct (mfind a (st_heap st)) as [[n c]|] eqn:Em; eauto.
    exfalso. refine (inv_alive _ _ I a _ Em). unfold occ. simpl. destruct (Nat.eq_dec a a); [lia|congruence].
  Qed.

  Lemma occ_cons : forall a b T, occ a (b :: T) = (if Nat.eqb b a then 1 else 0) + occ a T.
  Proof.
    intros. unfold occ. simpl. destruct (Nat.eq_dec b a) as [->|N].
    - now rewrite Nat.eqb_refl.
    - apply Nat.eqb_neq in N. now rewrite N.
  Qed.

  (** ** acquire *)
  Lemma acquire_inv : forall T st a, inv T st -> mfind a (st_heap st) <> None -> inv (a :: T) (acquire st a).
  Proof.
    intros T st a I H. unfold acquire. destruct (mfind a (st_heap st)) as [[n c]|] eqn:Em; [|congruence]. clear H.
    destruct I as [I1 I2 I3 I4 I5 I6]. constructor; fields; auto.
    - now apply mset_sorted.
    - intros b m d Hb. rewrite occ_cons. destruct (Nat.eqb a b) eqn:Eab.
      + apply Nat.eqb_eq in Eab. subst b. rewrite mfind_mset_same in Hb. injection Hb as <- <-.
        destruct (I3 _ _ _ Em). lia.
      + apply Nat.eqb_neq in Eab. rewrite mfind_mset_other in Hb by congruence. destruct (I3 _ _ _ Hb). lia.
    - intros b Hb. rewrite occ_cons in Hb. destruct (Nat.eqb a b) eqn:Eab.
      + apply Nat.eqb_eq in Eab. subst b. rewrite mfind_mset_same. discriminate.
      + apply Nat.eqb_neq in Eab. rewrite mfind_mset_other by congruence. apply I4. lia.
    - intros b Hb. destruct (Nat.eq_dec b a) as [->|N].
      + apply I5. congruence.
      + rewrite mfind_mset_other in Hb by congruence. now apply I5.
  Qed.
  Lemma acquire_cell : forall st a b, cell (acquire st a) b = cell st b.
  Proof.
    intros. unfold acquire, cell. destruct (mfind a (st_heap st)) as [[n c]|] eqn:Em; [|reflexivity]. simpl.
    destruct (Nat.eq_dec b a) as [->|N].
    - rewrite mfind_mset_same, Em. reflexivity.
    - now rewrite mfind_mset_other by congruence.
  Qed.
  Lemma acquire_vars : forall st a, st_vars (acquire st a) = st_vars st.
  Proof. intros. unfold acquire. now destruct (mfind a (st_heap st)) as [[n c]|]. Qed.

  (** ** alloc *)
  Lemma alloc_inv : forall T st c, inv T st -> inv (st_next st :: T) (snd (alloc st c)).
  Proof.
    intros T st c [I1 I2 I3 I4 I5 I6].
    assert (N : mfind (st_next st) (st_heap st) = None).
    { destruct (mfind (st_next st) (st_heap st)) eqn:Em; auto. exfalso.
      assert (st_next st < st_next st) by (apply I5; congruence). lia. }
    assert (Z : count (st_next st) (st_vars st) + occ (st_next st) T = 0).
    { destruct (count (st_next st) (st_vars st) + occ (st_next st) T) eqn:Ez; auto. exfalso. apply (I4 (st_next st)); auto. lia. }
    constructor; fields; auto.
    - now apply mset_sorted.
    - intros b m d Hb. rewrite occ_cons. destruct (Nat.eqb (st_next st) b) eqn:Eab.
      + apply Nat.eqb_eq in Eab. subst b. rewrite mfind_mset_same in Hb. injection Hb as <- <-. lia.
      + apply Nat.eqb_neq in Eab. rewrite mfind_mset_other in Hb by congruence. destruct (I3 _ _ _ Hb). lia.
    - intros b Hb. rewrite occ_cons in Hb. destruct (Nat.eqb (st_next st) b) eqn:Eab.
      + apply Nat.eqb_eq in Eab. subst b. rewrite mfind_mset_same. discriminate.
      + apply Nat.eqb_neq in Eab. rewrite mfind_mset_other by congruence. apply I4. lia.
    - intros b Hb. destruct (Nat.eq_dec b (st_next st)) as [->|Nb]; [lia|].
      rewrite mfind_mset_other in Hb by congruence. apply I5 in Hb. lia.
    - intros r l Hl. apply I6 in Hl. lia.
  Qed.
  Lemma alloc_cell : forall T st c b, inv T st ->
    cell (snd (alloc st c)) b = if Nat.eqb b (st_next st) then Some c else cell st b.
  Proof.
    intros T st c b I. unfold cell. simpl. destruct (Nat.eqb b (st_next st)) eqn:Eb.
    - apply Nat.eqb_eq in Eb. subst. now rewrite mfind_mset_same.
    - apply Nat.eqb_neq in Eb. now rewrite mfind_mset_other by congruence.
  Qed.
  Lemma cell_next : forall T st, inv T st -> cell st (st_next st) = None.
  Proof.
    intros T st I. unfold cell. destruct (mfind (st_next st) (st_heap st)) eqn:Em; auto. exfalso.
    assert (st_next st < st_next st) by (apply (inv_next _ _ I); congruence). lia.
  Qed.

  (** ** release *)
  Lemma release_inv : forall T st a, inv (a :: T) st -> inv T (release st a).
  Proof.
    intros T st a I. destruct (temp_alive _ _ _ I) as [n [c Em]].
    unfold release. rewrite Em. destruct I as [I1 I2 I3 I4 I5 I6].
    destruct (I3 _ _ _ Em) as [Hn Hp]. rewrite occ_cons, Nat.eqb_refl in Hn.
    destruct (Nat.eqb n 1) eqn:E1.
    - apply Nat.eqb_eq in E1. constructor; fields; auto.
      + now apply merase_sorted.
      + intros b m d Hb. destruct (Nat.eq_dec b a) as [->|N].
        * rewrite mfind_merase_same in Hb by assumption. discriminate.
        * rewrite mfind_merase_other in Hb by assumption. destruct (I3 _ _ _ Hb) as [H1 H2].
          rewrite occ_cons in H1. apply not_eq_sym, Nat.eqb_neq in N. rewrite N in H1. lia.
      + intros b Hb. destruct (Nat.eq_dec b a) as [->|N]; [lia|].
        rewrite mfind_merase_other by assumption. apply I4. rewrite occ_cons. lia.
      + intros b Hb. apply I5. destruct (Nat.eq_dec b a) as [->|N].
        * rewrite mfind_merase_same in Hb by assumption. congruence.
        * now rewrite mfind_merase_other in Hb by assumption.
    - apply Nat.eqb_neq in E1. constructor; fields; auto.
      + now apply mset_sorted.
      + intros b m d Hb. destruct (Nat.eq_dec b a) as [->|N].
        * rewrite mfind_mset_same in Hb. injection Hb as <- <-. lia.
        * rewrite mfind_mset_other in Hb by assumption. destruct (I3 _ _ _ Hb) as [H1 H2].
          rewrite occ_cons in H1. apply not_eq_sym, Nat.eqb_neq in N. rewrite N in H1. lia.
      + intros b Hb. destruct (Nat.eq_dec b a) as [->|N].
        * rewrite mfind_mset_same. discriminate.
        * rewrite mfind_mset_other by assumption. apply I4. rewrite occ_cons. lia.
      + intros b Hb. apply I5. destruct (Nat.eq_dec b a) as [->|N]; [congruence|].
        now rewrite mfind_mset_other in Hb by assumption.
  Qed.
  Lemma release_vars : forall st a, st_vars (release st a) = st_vars st.
  Proof.
    intros. unfold release. destruct (mfind a (st_heap st)) as [[n c]|]; auto. now destruct (Nat.eqb n 1).
  Qed.
  Lemma release_next : forall st a, st_next (release st a) = st_next st.
  Proof.
    intros. unfold release. destruct (mfind a (st_heap st)) as [[n c]|]; auto. now destruct (Nat.eqb n 1).
  Qed.
  Lemma release_refs : forall st a, st_refs (release st a) = st_refs st.
  Proof.
    intros. unfold release. destruct (mfind a (st_heap st)) as [[n c]|]; auto. now destruct (Nat.eqb n 1).
  Qed.
  (** what is still pointed to keeps its contents *)
  Lemma release_cell : forall T st a b, inv (a :: T) st -> 0 < count b (st_vars st) + occ b T ->
    cell (release st a) b = cell st b.
  Proof.
    intros T st a b I Hb. destruct (temp_alive _ _ _ I) as [n [c Em]].
    destruct (inv_count _ _ I _ _ _ Em) as [Hn _]. rewrite occ_cons, Nat.eqb_refl in Hn.
    unfold release, cell. rewrite Em. destruct (Nat.eqb n 1) eqn:E1; simpl.
    - apply Nat.eqb_eq in E1. destruct (Nat.eq_dec b a) as [->|N]; [lia|].
      now rewrite mfind_merase_other by assumption.
    - destruct (Nat.eq_dec b a) as [->|N].
      + rewrite mfind_mset_same, Em. reflexivity.
      + now rewrite mfind_mset_other by assumption.
  Qed.
  Lemma release_read : forall T st a x, inv (a :: T) st -> read (release st a) x = read st x.
  Proof.
    intros T st a x I. rewrite !read_cell, release_vars. destruct (mfind x (st_vars st)) as [h|] eqn:Ex; auto.
    rewrite (release_cell T); auto. pose proof (count_pos (h_core h) x h _ Ex eq_refl). lia.
  Qed.

  (** ** store and drop *)
  Lemma with_vars_inv : forall T st x h, inv (h_core h :: T) st ->
    inv (match mfind x (st_vars st) with Some o => h_core o :: T | None => T end)
      (with_vars st (mset x h (st_vars st))).
  Proof.
    intros T st x h [I1 I2 I3 I4 I5 I6].
    pose proof (fun a => count_mset a x h _ I2) as C.
    constructor; fields; auto.
    - now apply mset_sorted.
    - intros a n c Ha. destruct (I3 _ _ _ Ha) as [H1 H2]. specialize (C a). rewrite occ_cons in H1.
      split; auto. destruct (mfind x (st_vars st)) as [o|]; simpl in C; [rewrite occ_cons|]; lia.
    - intros a Ha. apply I4. specialize (C a). rewrite occ_cons.
      destruct (mfind x (st_vars st)) as [o|]; simpl in C; [rewrite occ_cons in Ha|]; lia.
  Qed.
  Lemma store_inv : forall T st x h, inv (h_core h :: T) st -> inv T (store st x h).
  Proof.
    intros T st x h I. apply (with_vars_inv T st x h) in I. unfold store.
    destruct (mfind x (st_vars st)) as [o|]; auto. now apply release_inv.
  Qed.
  Lemma store_read : forall T st x h y, inv (h_core h :: T) st ->
    read (store st x h) y =
    if Nat.eqb y x then option_map (mkTensor (h_names h)) (cell st (h_core h)) else read st y.
  Proof.
    intros T st x h y I.
    assert (Hw : read (with_vars st (mset x h (st_vars st))) y =
      if Nat.eqb y x then option_map (mkTensor (h_names h)) (cell st (h_core h)) else read st y).
    { rewrite !read_cell. simpl. destruct (Nat.eqb y x) eqn:Eyx.
      - apply Nat.eqb_eq in Eyx. subst. now rewrite mfind_mset_same.
      - apply Nat.eqb_neq in Eyx. now rewrite mfind_mset_other by assumption. }
    apply (with_vars_inv T st x h) in I. unfold store.
    destruct (mfind x (st_vars st)) as [o|]; auto. now rewrite (release_read T).
  Qed.

  Lemma erase_inv : forall T st x, inv T st ->
    inv (match mfind x (st_vars st) with Some o => h_core o :: T | None => T end)
      (with_vars st (merase x (st_vars st))).
  Proof.
    intros T st x [I1 I2 I3 I4 I5 I6].
    pose proof (fun a => count_merase a x (st_vars st)) as C.
    constructor; fields; auto.
    - now apply merase_sorted.
    - intros a n c Ha. destruct (I3 _ _ _ Ha) as [H1 H2]. specialize (C a).
      split; auto. destruct (mfind x (st_vars st)) as [o|]; simpl in C; [rewrite occ_cons|]; lia.
    - intros a Ha. apply I4. specialize (C a).
      destruct (mfind x (st_vars st)) as [o|]; simpl in C; [rewrite occ_cons in Ha|]; lia.
  Qed.
  Lemma erase_read : forall T st x y, inv T st ->
    read (with_vars st (merase x (st_vars st))) y = if Nat.eqb y x then None else read st y.
  Proof.
    intros T st x y I. rewrite !read_cell. simpl. destruct (Nat.eqb y x) eqn:Eyx.
    - apply Nat.eqb_eq in Eyx. subst. now rewrite mfind_merase_same by apply (inv_vars _ _ I).
    - apply Nat.eqb_neq in Eyx. now rewrite mfind_merase_other by assumption.
  Qed.
  Lemma drop_inv : forall T st x, inv T st -> inv T (drop st x).
  Proof.
    intros T st x I. pose proof (erase_inv T st x I) as J. unfold drop.
    destruct (mfind x (st_vars st)) as [o|]; auto. now apply release_inv.
  Qed.
  Lemma drop_read : forall T st x y, inv T st -> read (drop st x) y = if Nat.eqb y x then None else read st y.
  Proof.
    intros T st x y I. pose proof (erase_inv T st x I) as J. rewrite <- (erase_read T st x y I). unfold drop.
    destruct (mfind x (st_vars st)) as [o|] eqn:Ex.
    - now rewrite (release_read T).
    - rewrite (erase_read T) by assumption. destruct (Nat.eqb y x) eqn:Eyx; auto.
      apply Nat.eqb_eq in Eyx. subst. rewrite read_cell, Ex. reflexivity.
  Qed.

  Lemma store_fresh_inv : forall st x t, inv [] st -> inv [] (store_fresh st x t).
  Proof. intros st x t I. unfold store_fresh. simpl. apply store_inv. simpl. now apply (alloc_inv [] st (t_core t)). Qed.
  Lemma alloc_read : forall T st c y, inv T st -> read (snd (alloc st c)) y = read st y.
  Proof.
    intros T st c y I. rewrite !read_cell. change (st_vars (snd (alloc st c))) with (st_vars st).
    destruct (mfind y (st_vars st)) as [h|] eqn:Ey; auto. rewrite (alloc_cell T) by assumption.
    destruct (Nat.eqb (h_core h) (st_next st)) eqn:En; auto. apply Nat.eqb_eq in En. exfalso.
    destruct (var_alive _ _ _ _ I Ey) as [n [d Hd]].
    assert (h_core h < st_next st) by (apply (inv_next _ _ I); congruence). lia.
  Qed.
  Lemma store_fresh_read : forall st x t y, inv [] st ->
    read (store_fresh st x t) y = if Nat.eqb y x then Some t else read st y.
  Proof.
    intros st x t y I. unfold store_fresh.
    change (read (store (snd (alloc st (t_core t))) x (mkHandle (t_names t) (st_next st))) y
            = if Nat.eqb y x then Some t else read st y).
    rewrite (store_read []) by (simpl h_core; now apply alloc_inv). rewrite (alloc_cell []), (alloc_read []) by assumption.
    simpl h_core. rewrite Nat.eqb_refl. destruct t as [names c]. reflexivity.
  Qed.
  Lemma store_shared_inv : forall st x names a, inv [] st -> mfind a (st_heap st) <> None ->
    inv [] (store_shared st x names a).
  Proof. intros. apply store_inv. simpl. now apply acquire_inv. Qed.
  Lemma acquire_read : forall st a y, read (acquire st a) y = read st y.
  Proof. intros. rewrite !read_cell, acquire_vars. destruct (mfind y (st_vars st)); auto. now rewrite acquire_cell. Qed.
  Lemma store_shared_read : forall st x names a y, inv [] st -> mfind a (st_heap st) <> None ->
    read (store_shared st x names a) y = if Nat.eqb y x then option_map (mkTensor names) (cell st a) else read st y.
  Proof.
    intros. unfold store_shared. rewrite (store_read []) by (simpl; now apply acquire_inv).
    rewrite acquire_cell, acquire_read. reflexivity.
  Qed.

  (** ** unshare: afterwards the core of x has no other holder, and every variable reads as before *)
  Lemma count_one : forall st x h y g, mfind x (st_vars st) = Some h -> mfind y (st_vars st) = Some g ->
    h_core g = h_core h -> count (h_core h) (st_vars st) <= 1 -> y = x.
  Proof.
    intros st x h y g. induction (st_vars st) as [|[k o] m IH]; intros Hx Hy Hg Hc; [discriminate|].
    cbn [mfind] in Hx, Hy. cbn [count] in Hc.
    destruct (eqb x k) eqn:Ex, (eqb y k) eqn:Ey.
    - apply eqb_eq in Ex, Ey. congruence.
    - injection Hx as ->. pose proof (count_pos (h_core h) y g m Hy Hg). simpl in Hc. rewrite Nat.eqb_refl in Hc. lia.
    - injection Hy as ->. pose proof (count_pos (h_core h) x h m Hx eq_refl). simpl in Hc.
      rewrite Hg, Nat.eqb_refl in Hc. lia.
    - apply IH; auto. lia.
  Qed.

  Lemma unshare_ok : forall st x t, inv [] st -> read st x = Some t ->
    exists st1 h, unshare st x = Ok (st1, h) /\ inv [] st1 /\ mfind x (st_vars st1) = Some h /\
      h_names h = t_names t /\ cell st1 (h_core h) = Some (t_core t) /\
      (forall y, read st1 y = read st y) /\
      (forall y g, mfind y (st_vars st1) = Some g -> h_core g = h_core h -> y = x) /\
      (forall y, y <> x -> mfind y (st_vars st1) = mfind y (st_vars st)).
  Proof.
    intros st x t I Hr. rewrite read_cell in Hr. destruct (mfind x (st_vars st)) as [h|] eqn:Ex; [|discriminate].
    destruct (var_alive _ _ _ _ I Ex) as [n [c Em]].
    assert (Ec : cell st (h_core h) = Some c) by (unfold cell; now rewrite Em).
    rewrite Ec in Hr. injection Hr as <-. simpl t_names. simpl t_core.
    unfold unshare. rewrite Ex. cbn [get_or_ub bind]. rewrite Em. cbn [get_or_ub bind fst snd].
    destruct (Nat.eqb n 1) eqn:E1.
    - apply Nat.eqb_eq in E1. exists st, h. repeat (match goal with |- _ /\ _ => split end); auto.
      intros y g Hy Hg. apply (count_one st x h y g); auto.
      destruct (inv_count _ _ I _ _ _ Em) as [Hn _]. unfold occ in Hn. simpl in Hn. lia.
    - apply Nat.eqb_neq in E1.
      set (h' := mkHandle (h_names h) (st_next st)).
      change (alloc st c) with (st_next st, snd (alloc st c)). cbv iota.
      set (st1 := snd (alloc st c)).
      assert (J : inv [h_core h'] st1) by (apply (alloc_inv [] st c I)).
      assert (Hr : forall y, read (store st1 x h') y = read st y).
      { intro y. rewrite (store_read []) by assumption. unfold st1. rewrite (alloc_cell []), (alloc_read []) by assumption.
        simpl h_core. rewrite Nat.eqb_refl. destruct (Nat.eqb y x) eqn:Eyx; auto. apply Nat.eqb_eq in Eyx. subst y.
        rewrite read_cell, Ex, Ec. reflexivity. }
      assert (Hv : st_vars (store st1 x h') = mset x h' (st_vars st)).
      { unfold store. change (st_vars st1) with (st_vars st). rewrite Ex, release_vars. reflexivity. }
      assert (K : inv [] (store st1 x h')) by now apply store_inv.
      exists (store st1 x h'), h'. repeat (match goal with |- _ /\ _ => split end); auto.
      + rewrite Hv. apply mfind_mset_same.
      + pose proof (Hr x) as Hx. rewrite !read_cell, Hv, mfind_mset_same, Ex, Ec in Hx.
        destruct (cell (store st1 x h') (h_core h')) as [d|]; [|discriminate]. simpl in Hx. congruence.
      + intros y g Hy Hg. rewrite Hv in Hy. destruct (Nat.eq_dec y x) as [|N]; auto. exfalso.
        rewrite mfind_mset_other in Hy by assumption. destruct (var_alive _ _ _ _ I Hy) as [m [d Hd]].
        assert (h_core g < st_next st) by (apply (inv_next _ _ I); congruence). simpl in Hg. lia.
      + intros y N. rewrite Hv. now apply mfind_mset_other.
  Qed.
  Lemma unshare_ub : forall st x, inv [] st -> read st x = None -> unshare st x = UB.
  Proof.
    intros st x I Hr. rewrite read_cell in Hr. unfold unshare. destruct (mfind x (st_vars st)) as [h|] eqn:Ex; [|reflexivity].
    destruct (var_alive _ _ _ _ I Ex) as [n [c Em]]. unfold cell in Hr. rewrite Em in Hr. discriminate.
  Qed.

  (** ** overwrite *)
  Lemma overwrite_inv : forall T st a c, inv T st -> inv T (overwrite st a c).
  Proof.
    intros T st a c I. unfold overwrite. destruct (mfind a (st_heap st)) as [[n d]|] eqn:Em; auto.
    destruct I as [I1 I2 I3 I4 I5 I6]. constructor; fields; auto.
    - now apply mset_sorted.
    - intros b m e Hb. destruct (Nat.eq_dec b a) as [->|N].
      + rewrite mfind_mset_same in Hb. injection Hb as <- <-. eauto.
      + rewrite mfind_mset_other in Hb by assumption. eauto.
    - intros b Hb. destruct (Nat.eq_dec b a) as [->|N].
      + rewrite mfind_mset_same. discriminate.
      + rewrite mfind_mset_other by assumption. auto.
    - intros b Hb. apply I5. destruct (Nat.eq_dec b a) as [->|N]; [congruence|].
      now rewrite mfind_mset_other in Hb by assumption.
  Qed.
  Lemma overwrite_vars : forall st a c, st_vars (overwrite st a c) = st_vars st.
  Proof. intros. unfold overwrite. now destruct (mfind a (st_heap st)) as [[n d]|]. Qed.
  Lemma overwrite_cell : forall st a c b, cell (overwrite st a c) b =
    if Nat.eqb b a then option_map (fun _ => c) (cell st a) else cell st b.
  Proof.
    intros. unfold overwrite, cell. destruct (Nat.eqb b a) eqn:Eb.
    - apply Nat.eqb_eq in Eb. subst. destruct (mfind a (st_heap st)) as [[n d]|] eqn:Em; simpl.
      + now rewrite mfind_mset_same.
      + now rewrite Em.
    - apply Nat.eqb_neq in Eb. destruct (mfind a (st_heap st)) as [[n d]|]; simpl; auto.
      now rewrite mfind_mset_other by assumption.
  Qed.
  (** writing a core only one variable holds *)
  Lemma overwrite_read : forall st x h c y, mfind x (st_vars st) = Some h -> cell st (h_core h) <> None ->
    (forall y g, mfind y (st_vars st) = Some g -> h_core g = h_core h -> y = x) ->
    read (overwrite st (h_core h) c) y = if Nat.eqb y x then Some (mkTensor (h_names h) c) else read st y.
  Proof.
    intros st x h c y Hx Hc Hu. rewrite !read_cell, overwrite_vars. destruct (Nat.eqb y x) eqn:Eyx.
    - apply Nat.eqb_eq in Eyx. subst. rewrite Hx, overwrite_cell, Nat.eqb_refl.
      destruct (cell st (h_core h)); [reflexivity|congruence].
    - apply Nat.eqb_neq in Eyx. destruct (mfind y (st_vars st)) as [g|] eqn:Ey; auto.
      rewrite overwrite_cell. destruct (Nat.eqb (h_core g) (h_core h)) eqn:Eg; auto.
      apply Nat.eqb_eq in Eg. elim Eyx. now apply (Hu y g).
  Qed.
End Cow.
