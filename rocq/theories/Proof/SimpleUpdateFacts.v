(** Lemmas for C40, C41: terms of one group are independent, and the processes end with the network of the sequential update. *)
From Coq Require Import String List Bool Arith ZArith Lia Permutation.
From Verif Require Import Base.Outcome Base.SMap Model.Symmetry Model.Schedule Model.Lazy Model.Mpi Model.SimpleUpdate.
From Verif Require Import Spec.Bonds Spec.Runs Spec.Lattice Proof.SymmetryFacts Proof.LazyFacts Proof.Network Proof.MpiFacts Proof.ScheduleFacts.
Import ListNotations.
Open Scope Z_scope.

#[global] Instance OrdLaws_direction : OrdLaws direction.
Proof. constructor; [intros [] []|intros [] []|intros [] [] []]; cbn; intuition congruence. Qed.

Section Lattice.
  Context {T : Type}.
  Lemma lookup_inside : forall M N (l : list (list T)) x y, rectangle M N l -> inside M N (x, y) -> exists t, lookup x y l = Some t.
  Proof.
    intros M N l x y [HM HN] [Hx Hy]. cbn in Hx, Hy. unfold lookup. destruct (Z.ltb_spec x 0); [lia|]. destruct (Z.ltb_spec y 0); [lia|]. cbn [orb].
    destruct (nth_error l (Z.to_nat x)) as [row|] eqn:E; [|apply nth_error_None in E; lia]. apply nth_error_In in E. apply HN in E.
    destruct (nth_error row (Z.to_nat y)) as [t|] eqn:E'; [eauto|]. apply nth_error_None in E'. lia.
  Qed.
  Lemma lookup_outside : forall M N (l : list (list T)) x y t, rectangle M N l -> lookup x y l = Some t -> inside M N (x, y).
  Proof.
    intros M N l x y t [HM HN] H. unfold lookup in H. destruct (Z.ltb_spec x 0); [discriminate|]. destruct (Z.ltb_spec y 0); [discriminate|]. cbn [orb] in H.
    destruct (nth_error l (Z.to_nat x)) as [row|] eqn:E; [|discriminate]. assert (Q := proj1 (nth_error_Some l (Z.to_nat x)) ltac:(congruence)).
    apply nth_error_In in E. apply HN in E. assert (Q' := proj1 (nth_error_Some row (Z.to_nat y)) ltac:(congruence)). unfold inside. cbn. lia.
  Qed.
  Lemma nth_update_here : forall A i (f : A -> A) l, nth_error (update i f l) i = option_map f (nth_error l i).
  Proof. intros A i f l. revert i. induction l as [|a l IH]; intros [|i]; cbn; try reflexivity. apply IH. Qed.
  Lemma nth_update_there : forall A i j (f : A -> A) l, i <> j -> nth_error (update i f l) j = nth_error l j.
  Proof. intros A i j f l. revert i j. induction l as [|a l IH]; intros [|i] [|j] H; cbn; try reflexivity; try congruence. apply IH. congruence. Qed.
  Lemma length_upd : forall A i (f : A -> A) l, length (update i f l) = length l.
  Proof. intros A i f l. revert i. induction l as [|a l IH]; intros [|i]; cbn; try reflexivity. rewrite IH. reflexivity. Qed.
  Lemma In_update : forall A i (f : A -> A) l x, In x (update i f l) -> In x l \/ exists y, In y l /\ x = f y.
  Proof.
    intros A i f l. revert i. induction l as [|a l IH]; intros [|i] x H; cbn in H; try (now destruct H).
    - destruct H as [<-|H]; [right; exists a; split; [left|]; reflexivity|left; right; exact H].
    - destruct H as [<-|H]; [left; left; reflexivity|]. apply IH in H. destruct H as [H|[y [Hy E]]]; [left; right; exact H|right; exists y; split; [right; exact Hy|exact E]].
  Qed.
  Lemma store_rectangle : forall M N (l : list (list T)) x y t, rectangle M N l -> rectangle M N (store x y t l).
  Proof.
    intros M N l x y t [HM HN]. unfold store. split; [rewrite length_upd; exact HM|]. intros row H. apply In_update in H. destruct H as [H|[r [Hr ->]]]; [apply HN; exact H|].
    rewrite length_upd. apply HN. exact Hr.
  Qed.
  Lemma lookup_store : forall M N (l : list (list T)) x y t, rectangle M N l -> inside M N (x, y) -> lookup x y (store x y t l) = Some t.
  Proof.
    intros M N l x y t R H. destruct (lookup_inside M N l x y R H) as [t0 E]. unfold lookup, store in *. destruct ((x <? 0) || (y <? 0)); [discriminate|].
    rewrite nth_update_here. destruct (nth_error l (Z.to_nat x)) as [row|]; [|discriminate]. cbn. rewrite nth_update_here, E. reflexivity.
  Qed.
  Lemma lookup_store_other : forall (l : list (list T)) x y t x' y', 0 <= x -> 0 <= y -> (x, y) <> (x', y') -> lookup x' y' (store x y t l) = lookup x' y' l.
  Proof.
    intros l x y t x' y' Hx Hy Ne. unfold lookup, store. destruct (Z.ltb_spec x' 0); [reflexivity|]. destruct (Z.ltb_spec y' 0); [reflexivity|]. cbn [orb].
    destruct (Z.eq_dec x x') as [<-|Hn].
    - rewrite nth_update_here. destruct (nth_error l (Z.to_nat x)) as [row|]; [|reflexivity]. cbn. apply nth_update_there. intros E. apply Ne. f_equal. lia.
    - rewrite nth_update_there; [reflexivity|]. lia.
  Qed.
  Lemma rectangle_ext : forall M N (l l' : list (list T)), rectangle M N l -> rectangle M N l' -> (forall x y, lookup x y l = lookup x y l') -> l = l'.
  Proof.
    assert (LE : forall A (l l' : list A), length l = length l' -> (forall i, (i < length l)%nat -> nth_error l i = nth_error l' i) -> l = l').
    { intros A l. induction l as [|a l IH]; intros [|a' l'] HL H; try discriminate; [reflexivity|]. f_equal.
      - specialize (H 0%nat ltac:(cbn; lia)). cbn in H. congruence.
      - apply IH; [cbn in HL; lia|]. intros i Hi. apply (H (S i)). cbn. lia. }
    intros M N l l' [HM HN] [HM' HN'] H. apply LE; [congruence|]. intros i Hi.
    destruct (nth_error l i) as [row|] eqn:E; [|apply nth_error_None in E; lia]. destruct (nth_error l' i) as [row'|] eqn:E'; [|apply nth_error_None in E'; lia]. f_equal.
    assert (HN1 := HN row (nth_error_In _ _ E)). assert (HN1' := HN' row' (nth_error_In _ _ E')). apply LE; [congruence|]. intros j Hj.
    specialize (H (Z.of_nat i) (Z.of_nat j)). unfold lookup in H. destruct (Z.ltb_spec (Z.of_nat i) 0); [lia|]. destruct (Z.ltb_spec (Z.of_nat j) 0); [lia|].
    cbn [orb] in H. rewrite !Nat2Z.id, E, E' in H. exact H.
  Qed.
End Lattice.

Lemma Ok_inj : forall A (a b : A), Ok a = Ok b -> a = b.
Proof. intros A a b H. injection H as H. exact H. Qed.

Section Frame.
  Context {T S U : Type}.
  Variable multiple : T -> S -> side -> bool -> T.
  Variable site_update : T -> U -> T.
  Variable bond_update : bool -> T -> T -> U -> T * S * T.
  Variable normalized : T -> T.
  Variable blank : S.
  Variables M N : Z.
  Notation network := (network T S).
  Notation single_term := (single_term multiple site_update bond_update normalized).
  Notation update_horizontal_bond := (update_horizontal_bond multiple bond_update normalized).
  Notation update_vertical_bond := (update_vertical_bond multiple bond_update normalized).
  Notation try_all := (try_all multiple).

  Notation shaped := (shaped M N).
  Definition loc : Type := (site + bond)%type.
  Definition look (n : network) (l : loc) : option (T + S) :=
    match l with inl (x, y) => option_map inl (lookup x y (lattice n)) | inr b => option_map inr (mfind b (environment n)) end.
  Lemma shaped_ext : forall n n', shaped n -> shaped n' -> (forall l, look n l = look n' l) -> n = n'.
  Proof.
    intros [l e] [l' e'] [R Se] [R' Se'] H. cbn in *. f_equal.
    - apply (rectangle_ext M N); [exact R|exact R'|]. intros x y. specialize (H (inl (x, y))). cbn in H. destruct (lookup x y l), (lookup x y l'); cbn in H; congruence.
    - apply msorted_ext; [exact Se|exact Se'|]. intros b. specialize (H (inr b)). cbn in H. destruct (mfind b e), (mfind b e'); cbn in H; congruence.
  Qed.

  Definition bonds_at (s : site) : list bond := [(DirR, (fst s, snd s - 1)); (DirD, (fst s - 1, snd s)); (DirD, s); (DirR, s)].
  Definition reads (p : positions) : list loc := map inl p ++ map inr (flat_map bonds_at p).
  Definition writes (p : positions) : list loc := map inl p ++ match related_environment p with Ok bs => map inr bs | _ => [] end.

  Definition key_of (i j : Z) (d : side) : bond :=
    match d with SideL => (DirR, (i, j - 1)) | SideU => (DirD, (i - 1, j)) | SideD => (DirD, (i, j)) | SideR => (DirR, (i, j)) end.
  Lemma try_all_ext : forall n n' i j l division t, (forall d, In d l -> mfind (key_of i j d) (environment n) = mfind (key_of i j d) (environment n')) ->
    try_all n t i j l division = try_all n' t i j l division.
  Proof.
    intros n n' i j l division. unfold SimpleUpdate.try_all. induction l as [|d l IH]; intros t H; cbn [fold_left]; [reflexivity|].
    rewrite IH by (intros d' Hd; apply H; right; exact Hd). f_equal. unfold try_multiple. assert (Q := H d (or_introl eq_refl)). destruct d; cbn in Q |- *; rewrite Q; reflexivity.
  Qed.

  Lemma horizontal_result : forall n i j u l r, lookup i j (lattice n) = Some l -> lookup i (j + 1) (lattice n) = Some r -> shaped n ->
    let l' := try_all n l i j [SideL; SideU; SideD; SideR] false in
    let r' := try_all n r i (j + 1) [SideU; SideD; SideR] false in
    let x := bond_update true l' r' u in
    let n1 := set_environment n (DirR, (i, j)) (snd (fst x)) in
    let a := normalized (try_all n1 (fst (fst x)) i j [SideL; SideU; SideD] true) in
    let b := normalized (try_all n1 (snd x) i (j + 1) [SideU; SideD; SideR] true) in
    update_horizontal_bond n (i, j) u = Ok (mkNetwork (store i (j + 1) b (store i j a (lattice n))) (mset (DirR, (i, j)) (snd (fst x)) (environment n))).
  Proof.
    intros n i j u l r Hl Hr [R Se]. cbn zeta. unfold SimpleUpdate.update_horizontal_bond, get_site. rewrite Hl. cbn [get_or_ub bind]. rewrite Hr. cbn [get_or_ub bind].
    destruct (bond_update true _ _ u) as [[x1 s] x2]. cbn [fst snd]. unfold set_site, get_site. cbn [set_environment lattice environment]. rewrite Hl. cbn [get_or_ub bind lattice environment].
    assert (I1 := lookup_outside M N _ _ _ _ R Hl). assert (I2 := lookup_outside M N _ _ _ _ R Hr). unfold inside in I1, I2. cbn in I1, I2.
    rewrite lookup_store_other by (try lia; intros E; inversion E; lia). rewrite Hr. cbn [get_or_ub bind]. reflexivity.
  Qed.
  Lemma vertical_result : forall n i j u l r, lookup i j (lattice n) = Some l -> lookup (i + 1) j (lattice n) = Some r -> shaped n ->
    let l' := try_all n l i j [SideL; SideU; SideD; SideR] false in
    let r' := try_all n r (i + 1) j [SideL; SideD; SideR] false in
    let x := bond_update false l' r' u in
    let n1 := set_environment n (DirD, (i, j)) (snd (fst x)) in
    let a := normalized (try_all n1 (fst (fst x)) i j [SideL; SideU; SideR] true) in
    let b := normalized (try_all n1 (snd x) (i + 1) j [SideL; SideD; SideR] true) in
    update_vertical_bond n (i, j) u = Ok (mkNetwork (store (i + 1) j b (store i j a (lattice n))) (mset (DirD, (i, j)) (snd (fst x)) (environment n))).
  Proof.
    intros n i j u l r Hl Hr [R Se]. cbn zeta. unfold SimpleUpdate.update_vertical_bond, get_site. rewrite Hl. cbn [get_or_ub bind]. rewrite Hr. cbn [get_or_ub bind].
    destruct (bond_update false _ _ u) as [[x1 s] x2]. cbn [fst snd]. unfold set_site, get_site. cbn [set_environment lattice environment]. rewrite Hl. cbn [get_or_ub bind lattice environment].
    assert (I1 := lookup_outside M N _ _ _ _ R Hl). assert (I2 := lookup_outside M N _ _ _ _ R Hr). unfold inside in I1, I2. cbn in I1, I2.
    rewrite lookup_store_other by (try lia; intros E; inversion E; lia). rewrite Hr. cbn [get_or_ub bind]. reflexivity.
  Qed.

  (** the effect of an action on a network: it ends well, changes nothing outside [ws], and what it stores there depends on [rs] only *)
  Definition framed (rs ws : list loc) (act : network -> res network) : Prop :=
    forall n, shaped n -> exists n', act n = Ok n' /\ shaped n' /\ (forall l, ~ In l ws -> look n' l = look n l) /\
      (forall l, In l ws -> look n' l <> None) /\
      forall m m', shaped m -> (forall l, In l rs -> look m l = look n l) -> act m = Ok m' -> forall l, In l ws -> look m' l = look n' l.

  Lemma horizontal_framed : forall i j u, inside M N (i, j) -> inside M N (i, j + 1) ->
    framed (reads [(i, j); (i, j + 1)]) [inl (i, j); inl (i, j + 1); inr (DirR, (i, j))] (fun n => update_horizontal_bond n (i, j) u).
  Proof.
    intros i j u I1 I2 n Sh. destruct Sh as [R Se] eqn:Esh. clear Esh. 
    destruct (lookup_inside M N _ _ _ R I1) as [l Hl]. destruct (lookup_inside M N _ _ _ R I2) as [r Hr].
    assert (Q := horizontal_result n i j u l r Hl Hr Sh). cbn zeta in Q. rewrite Q. clear Q. eexists. split; [reflexivity|]. 
    assert (P1 : 0 <= i) by (destruct I1; cbn in *; lia). assert (P2 : 0 <= j) by (destruct I1; cbn in *; lia).
    split; [|split; [|split]].
    - split; cbn [lattice environment]; [apply store_rectangle, store_rectangle; exact R|apply mset_sorted; exact Se].
    - intros [[x y]|b] Hn; cbn [look lattice environment]; f_equal.
      + rewrite !lookup_store_other; try lia; [reflexivity| |]; intros E; inversion E; subst; apply Hn; cbn; tauto.
      + apply mfind_mset_other. intros ->. apply Hn. cbn. tauto.
    - intros l0 [<-|[<-|[<-|[]]]]; cbn [look lattice environment].
      + rewrite lookup_store_other by (try lia; intros E; inversion E; lia). rewrite (lookup_store M N _ _ _ _ R I1). discriminate.
      + rewrite (lookup_store M N _ _ _ _ (store_rectangle M N _ _ _ _ R) I2). discriminate.
      + rewrite mfind_mset_same. discriminate.
    - intros m m' Shm Hag Hm. assert (Shm' := Shm). destruct Shm' as [Rm Sem].
      assert (Hl' : lookup i j (lattice m) = Some l) by (specialize (Hag (inl (i, j)) ltac:(cbn; tauto)); cbn in Hag; rewrite Hl in Hag; destruct (lookup i j (lattice m)); cbn in Hag; congruence).
      assert (Hr' : lookup i (j + 1) (lattice m) = Some r) by (specialize (Hag (inl (i, j + 1)) ltac:(cbn; tauto)); cbn in Hag; rewrite Hr in Hag; destruct (lookup i (j + 1) (lattice m)); cbn in Hag; congruence).
      assert (He : forall b, In b (flat_map bonds_at [(i, j); (i, j + 1)]) -> mfind b (environment m) = mfind b (environment n)).
      { intros b Hb. specialize (Hag (inr b) ltac:(apply in_app_iff; right; apply in_map; exact Hb)). cbn in Hag. destruct (mfind b (environment m)), (mfind b (environment n)); cbn in Hag; congruence. }
      assert (Q := horizontal_result m i j u l r Hl' Hr' Shm). cbn zeta in Q. assert (Qm := eq_trans (eq_sym Hm) Q). apply Ok_inj in Qm. rewrite Qm. clear Q Hm Qm.
      assert (E1 : try_all m l i j [SideL; SideU; SideD; SideR] false = try_all n l i j [SideL; SideU; SideD; SideR] false).
      { apply try_all_ext. intros d Hd. apply He. destruct Hd as [<-|[<-|[<-|[<-|[]]]]]; cbn; tauto. }
      assert (E2 : try_all m r i (j + 1) [SideU; SideD; SideR] false = try_all n r i (j + 1) [SideU; SideD; SideR] false).
      { apply try_all_ext. intros d Hd. apply He. destruct Hd as [<-|[<-|[<-|[]]]]; cbn; tauto. }
      rewrite E1, E2. set (X := bond_update true _ _ u).
      assert (Ee : forall s b, In b (flat_map bonds_at [(i, j); (i, j + 1)]) -> mfind b (mset (DirR, (i, j)) s (environment m)) = mfind b (mset (DirR, (i, j)) s (environment n))).
      { intros s b Hb. destruct (ord_dec b (DirR, (i, j))) as [->|Hne]; [rewrite !mfind_mset_same; reflexivity|]. rewrite !mfind_mset_other by exact Hne. apply He. exact Hb. }
      assert (E3 : forall t s, try_all (set_environment m (DirR, (i, j)) s) t i j [SideL; SideU; SideD] true = try_all (set_environment n (DirR, (i, j)) s) t i j [SideL; SideU; SideD] true).
      { intros t s. apply try_all_ext. intros d Hd. apply Ee. destruct Hd as [<-|[<-|[<-|[]]]]; cbn; tauto. }
      assert (E4 : forall t s, try_all (set_environment m (DirR, (i, j)) s) t i (j + 1) [SideU; SideD; SideR] true = try_all (set_environment n (DirR, (i, j)) s) t i (j + 1) [SideU; SideD; SideR] true).
      { intros t s. apply try_all_ext. intros d Hd. apply Ee. destruct Hd as [<-|[<-|[<-|[]]]]; cbn; tauto. }
      rewrite E3, E4. intros l0 [<-|[<-|[<-|[]]]]; cbn [look lattice environment].
      + rewrite lookup_store_other by (try lia; intros E; inversion E; lia). rewrite (lookup_store M N _ _ _ _ Rm I1).
        rewrite lookup_store_other by (try lia; intros E; inversion E; lia). rewrite (lookup_store M N _ _ _ _ R I1). reflexivity.
      + rewrite (lookup_store M N _ _ _ _ (store_rectangle M N _ _ _ _ R) I2), (lookup_store M N _ _ _ _ (store_rectangle M N _ _ _ _ Rm) I2). reflexivity.
      + rewrite !mfind_mset_same. reflexivity.
  Qed.
  Lemma vertical_framed : forall i j u, inside M N (i, j) -> inside M N (i + 1, j) ->
    framed (reads [(i, j); (i + 1, j)]) [inl (i, j); inl (i + 1, j); inr (DirD, (i, j))] (fun n => update_vertical_bond n (i, j) u).
  Proof.
    intros i j u I1 I2 n Sh. destruct Sh as [R Se] eqn:Esh. clear Esh. 
    destruct (lookup_inside M N _ _ _ R I1) as [l Hl]. destruct (lookup_inside M N _ _ _ R I2) as [r Hr].
    assert (Q := vertical_result n i j u l r Hl Hr Sh). cbn zeta in Q. rewrite Q. clear Q. eexists. split; [reflexivity|]. 
    assert (P1 : 0 <= i) by (destruct I1; cbn in *; lia). assert (P2 : 0 <= j) by (destruct I1; cbn in *; lia).
    split; [|split; [|split]].
    - split; cbn [lattice environment]; [apply store_rectangle, store_rectangle; exact R|apply mset_sorted; exact Se].
    - intros [[x y]|b] Hn; cbn [look lattice environment]; f_equal.
      + rewrite !lookup_store_other; try lia; [reflexivity| |]; intros E; inversion E; subst; apply Hn; cbn; tauto.
      + apply mfind_mset_other. intros ->. apply Hn. cbn. tauto.
    - intros l0 [<-|[<-|[<-|[]]]]; cbn [look lattice environment].
      + rewrite lookup_store_other by (try lia; intros E; inversion E; lia). rewrite (lookup_store M N _ _ _ _ R I1). discriminate.
      + rewrite (lookup_store M N _ _ _ _ (store_rectangle M N _ _ _ _ R) I2). discriminate.
      + rewrite mfind_mset_same. discriminate.
    - intros m m' Shm Hag Hm. assert (Shm' := Shm). destruct Shm' as [Rm Sem].
      assert (Hl' : lookup i j (lattice m) = Some l) by (specialize (Hag (inl (i, j)) ltac:(cbn; tauto)); cbn in Hag; rewrite Hl in Hag; destruct (lookup i j (lattice m)); cbn in Hag; congruence).
      assert (Hr' : lookup (i + 1) j (lattice m) = Some r) by (specialize (Hag (inl (i + 1, j)) ltac:(cbn; tauto)); cbn in Hag; rewrite Hr in Hag; destruct (lookup (i + 1) j (lattice m)); cbn in Hag; congruence).
      assert (He : forall b, In b (flat_map bonds_at [(i, j); (i + 1, j)]) -> mfind b (environment m) = mfind b (environment n)).
      { intros b Hb. specialize (Hag (inr b) ltac:(apply in_app_iff; right; apply in_map; exact Hb)). cbn in Hag. destruct (mfind b (environment m)), (mfind b (environment n)); cbn in Hag; congruence. }
      assert (Q := vertical_result m i j u l r Hl' Hr' Shm). cbn zeta in Q. assert (Qm := eq_trans (eq_sym Hm) Q). apply Ok_inj in Qm. rewrite Qm. clear Q Hm Qm.
      assert (E1 : try_all m l i j [SideL; SideU; SideD; SideR] false = try_all n l i j [SideL; SideU; SideD; SideR] false).
      { apply try_all_ext. intros d Hd. apply He. destruct Hd as [<-|[<-|[<-|[<-|[]]]]]; cbn; tauto. }
      assert (E2 : try_all m r (i + 1) j [SideL; SideD; SideR] false = try_all n r (i + 1) j [SideL; SideD; SideR] false).
      { apply try_all_ext. intros d Hd. apply He. destruct Hd as [<-|[<-|[<-|[]]]]; cbn; tauto. }
      rewrite E1, E2. set (X := bond_update false _ _ u).
      assert (Ee : forall s b, In b (flat_map bonds_at [(i, j); (i + 1, j)]) -> mfind b (mset (DirD, (i, j)) s (environment m)) = mfind b (mset (DirD, (i, j)) s (environment n))).
      { intros s b Hb. destruct (ord_dec b (DirD, (i, j))) as [->|Hne]; [rewrite !mfind_mset_same; reflexivity|]. rewrite !mfind_mset_other by exact Hne. apply He. exact Hb. }
      assert (E3 : forall t s, try_all (set_environment m (DirD, (i, j)) s) t i j [SideL; SideU; SideR] true = try_all (set_environment n (DirD, (i, j)) s) t i j [SideL; SideU; SideR] true).
      { intros t s. apply try_all_ext. intros d Hd. apply Ee. destruct Hd as [<-|[<-|[<-|[]]]]; cbn; tauto. }
      assert (E4 : forall t s, try_all (set_environment m (DirD, (i, j)) s) t (i + 1) j [SideL; SideD; SideR] true = try_all (set_environment n (DirD, (i, j)) s) t (i + 1) j [SideL; SideD; SideR] true).
      { intros t s. apply try_all_ext. intros d Hd. apply Ee. destruct Hd as [<-|[<-|[<-|[]]]]; cbn; tauto. }
      rewrite E3, E4. intros l0 [<-|[<-|[<-|[]]]]; cbn [look lattice environment].
      + rewrite lookup_store_other by (try lia; intros E; inversion E; lia). rewrite (lookup_store M N _ _ _ _ Rm I1).
        rewrite lookup_store_other by (try lia; intros E; inversion E; lia). rewrite (lookup_store M N _ _ _ _ R I1). reflexivity.
      + rewrite (lookup_store M N _ _ _ _ (store_rectangle M N _ _ _ _ R) I2), (lookup_store M N _ _ _ _ (store_rectangle M N _ _ _ _ Rm) I2). reflexivity.
      + rewrite !mfind_mset_same. reflexivity.
  Qed.

  Lemma framed_ext : forall rs ws rs' ws' act act', framed rs ws act -> (forall l, In l rs -> In l rs') -> (forall l, In l ws <-> In l ws') -> (forall n, act n = act' n) ->
    framed rs' ws' act'.
  Proof.
    intros rs ws rs' ws' act act' F Hr Hw Ha n Sh. destruct (F n Sh) as [n' [E [S1 [O [D I]]]]]. exists n'. rewrite <- Ha. split; [exact E|]. split; [exact S1|]. split; [|split].
    - intros l Hl. apply O. rewrite Hw. exact Hl.
    - intros l Hl. apply D. apply Hw. exact Hl.
    - intros m m' Sm Hag Em l Hl. rewrite <- Ha in Em. apply (I m m' Sm); [|exact Em|apply Hw; exact Hl]. intros l' Hl'. apply Hag, Hr. exact Hl'.
  Qed.
  Lemma site_framed : forall a u, inside M N a -> framed [inl a] [inl a] (fun n => update_single_site site_update n a u).
  Proof.
    intros [x y] u I n Sh. destruct Sh as [R Se]. destruct (lookup_inside M N _ _ _ R I) as [t Ht].
    assert (P : 0 <= x /\ 0 <= y) by (destruct I; cbn in *; lia). unfold update_single_site, set_site, get_site. cbn [fst snd]. rewrite Ht. cbn [get_or_ub bind]. eexists. split; [reflexivity|].
    split; [|split; [|split]].
    - split; cbn [lattice environment]; [apply store_rectangle; exact R|exact Se].
    - intros [[x' y']|b] Hn; cbn [look lattice environment]; [|reflexivity]. f_equal. apply lookup_store_other; try lia. intros E. inversion E. subst. apply Hn. cbn. tauto.
    - intros l [<-|[]]. cbn [look lattice]. rewrite (lookup_store M N _ _ _ _ R I). discriminate.
    - intros m m' [Rm Sm] Hag Hm. assert (Ht' : lookup x y (lattice m) = Some t).
      { specialize (Hag (inl (x, y)) ltac:(cbn; tauto)). cbn in Hag. rewrite Ht in Hag. destruct (lookup x y (lattice m)); cbn in Hag; congruence. }
      rewrite Ht' in Hm. cbn [get_or_ub bind] in Hm. injection Hm as <-. intros l [<-|[]]. cbn [look lattice]. rewrite (lookup_store M N _ _ _ _ R I), (lookup_store M N _ _ _ _ Rm I). reflexivity.
  Qed.
  Ltac bools := repeat match goal with
    | |- context [Z.eqb ?a ?b] => destruct (Z.eqb_spec a b); try lia
    end; cbn [andb].
  Lemma term_framed : forall p u, local_term p -> (forall a, In a p -> inside M N a) -> framed (reads p) (writes p) (single_term p u).
  Proof.
    intros p u [[a ->]|[a [b [-> Ha]]]] Hin.
    - apply (framed_ext [inl a] [inl a] _ _ (fun n => update_single_site site_update n a u)); [apply site_framed, Hin; left; reflexivity| | |reflexivity].
      + intros l [<-|[]]. left. reflexivity.
      + intros l. unfold writes. destruct a. cbn. tauto.
    - assert (A := Hin a (or_introl eq_refl)). assert (B := Hin b (or_intror (or_introl eq_refl))).
      destruct (neighbours a b Ha) as [[i [j E]]|[[i [j E]]|[[i [j E]]|[i [j E]]]]]; inversion E; subst.
      + eapply framed_ext; [apply (horizontal_framed i j u A B)| | |].
        * intros l Hl. exact Hl.
        * intros l. unfold writes, related_environment. bools. cbn. tauto.
        * intros n. unfold SimpleUpdate.single_term. cbn [fst snd]. bools. reflexivity.
      + eapply framed_ext; [apply (horizontal_framed i j u B A)| | |].
        * intros l Hl. unfold reads in *. cbn in *. tauto.
        * intros l. unfold writes, related_environment. bools. cbn. tauto.
        * intros n. unfold SimpleUpdate.single_term. cbn [fst snd]. bools. reflexivity.
      + eapply framed_ext; [apply (vertical_framed i j u A B)| | |].
        * intros l Hl. exact Hl.
        * intros l. unfold writes, related_environment. bools. cbn. tauto.
        * intros n. unfold SimpleUpdate.single_term. cbn [fst snd]. bools. reflexivity.
      + eapply framed_ext; [apply (vertical_framed i j u B A)| | |].
        * intros l Hl. unfold reads in *. cbn in *. tauto.
        * intros l. unfold writes, related_environment. bools. cbn. tauto.
        * intros n. unfold SimpleUpdate.single_term. cbn [fst snd]. bools. reflexivity.
  Qed.
  Lemma writes_reads : forall p, local_term p -> forall l, In l (writes p) -> In l (reads p).
  Proof.
    intros p [[a ->]|[a [b [-> Ha]]]] l.
    - unfold writes, reads. destruct a. cbn. tauto.
    - destruct (neighbours a b Ha) as [[i [j E]]|[[i [j E]]|[[i [j E]]|[i [j E]]]]]; inversion E; subst; unfold writes, reads, related_environment; bools; cbn; tauto.
  Qed.
  (** the environment a term writes *)
  Lemma writes_environment : forall p, local_term p -> exists bs, related_environment p = Ok bs.
  Proof.
    intros p [[a ->]|[a [b [-> Ha]]]]; [exists []; destruct a; reflexivity|].
    destruct (neighbours a b Ha) as [[i [j E]]|[[i [j E]]|[[i [j E]]|[i [j E]]]]]; inversion E; subst; unfold related_environment; bools; eauto.
  Qed.

  Definition independent (p q : positions) : Prop := forall l, In l (writes p) -> ~ In l (reads q).
  Definition good_group (g : list positions) : Prop :=
    NoDup g /\ (forall p, In p g -> local_term p /\ forall a, In a p -> inside M N a) /\ forall p q, In p g -> In q g -> p <> q -> independent p q.
  Variable updater : list (positions * U).
  Notation term_of := (term_of multiple site_update bond_update normalized updater).
  Definition known (g : list positions) : Prop := forall p, In p g -> exists u, mfind p updater = Some u.
  Lemma term_of_framed : forall p : positions, local_term p -> (forall a, In a p -> inside M N a) -> (exists u, mfind p updater = Some u) -> framed (reads p) (writes p) (fun n => term_of n p).
  Proof.
    intros p L I [u E]. apply (framed_ext (reads p) (writes p) _ _ (single_term p u)); [apply term_framed; assumption|tauto|tauto|]. intros n. unfold SimpleUpdate.term_of. rewrite E. reflexivity.
  Qed.
  Definition outcome (p : positions) (n : network) (l : loc) : option (T + S) := match term_of n p with Ok n' => look n' l | _ => None end.
  Lemma run_terms : forall ts n, good_group ts -> known ts -> shaped n -> exists n', foldM term_of ts n = Ok n' /\ shaped n' /\
    (forall p l, In p ts -> In l (writes p) -> look n' l = outcome p n l /\ look n' l <> None) /\ (forall l, (forall p, In p ts -> ~ In l (writes p)) -> look n' l = look n l).
  Proof.
    induction ts as [|p ts IH]; intros n [ND [L I]] K Sh.
    - exists n. split; [reflexivity|]. split; [exact Sh|]. split; [intros p l []|reflexivity].
    - inversion ND as [|? ? Hp ND']; subst. destruct (L p (or_introl eq_refl)) as [Lp Ip].
      destruct (term_of_framed p Lp Ip (K p (or_introl eq_refl)) n Sh) as [n1 [E1 [Sh1 [O1 [D1 I1]]]]].
      destruct (IH n1) as [n2 [E2 [Sh2 [W2 O2]]]].
      { split; [exact ND'|]. split; [intros q Hq; apply L; right; exact Hq|]. intros q r Hq Hr. apply I; right; assumption. }
      { intros q Hq. apply K. right. exact Hq. }
      { exact Sh1. }
      exists n2. cbn [foldM]. rewrite E1. cbn [bind]. split; [exact E2|]. split; [exact Sh2|].
      assert (Sep : forall q l, In q ts -> In l (writes p) -> ~ In l (writes q)).
      { intros q l Hq Hl Hl'. apply (I q p (or_intror Hq) (or_introl eq_refl)) with l; [intros ->; contradiction|exact Hl'|]. apply writes_reads; assumption. }
      split.
      + intros q l [<-|Hq] Hl.
        * rewrite O2 by (intros q Hq; apply Sep; assumption). unfold outcome. rewrite E1. split; [reflexivity|apply D1; exact Hl].
        * destruct (W2 q l Hq Hl) as [W D]. split; [|exact D]. rewrite W. unfold outcome. destruct (L q (or_intror Hq)) as [Lq Iq].
          destruct (term_of_framed q Lq Iq (K q (or_intror Hq)) n Sh) as [n3 [E3 [_ [_ [_ I3]]]]]. rewrite E3.
          destruct (term_of_framed q Lq Iq (K q (or_intror Hq)) n1 Sh1) as [n4 [E4 _]]. rewrite E4.
          apply (I3 n1 n4 Sh1); [|exact E4|exact Hl]. intros l' Hl'. apply O1. intros Hw. apply (I p q (or_introl eq_refl) (or_intror Hq)) with l'; [intros ->; contradiction|exact Hw|exact Hl'].
      + intros l Hl. rewrite O2 by (intros q Hq; apply Hl; right; exact Hq). apply O1. apply Hl. left. reflexivity.
  Qed.
  Lemma loc_dec : forall a b : loc, {a = b} + {a <> b}.
  Proof.
    intros [a|a] [b|b]; try (right; discriminate); destruct (ord_dec a b) as [E|E]; [left; congruence|right; congruence|left; congruence|right; congruence].
  Qed.
  Lemma written_dec : forall (ts : list positions) l, (exists p, In p ts /\ In l (writes p)) \/ forall p, In p ts -> ~ In l (writes p).
  Proof.
    induction ts as [|p ts IH]; intros l; [right; intros p []|]. destruct (in_dec loc_dec l (writes p)) as [H|H].
    - left. exists p. split; [left; reflexivity|exact H].
    - destruct (IH l) as [[q [Hq Hl]]|Hn]; [left; exists q; split; [right; exact Hq|exact Hl]|]. right. intros q [<-|Hq]; [exact H|apply Hn; exact Hq].
  Qed.
  Lemma good_permutation : forall ts ts', Permutation ts ts' -> good_group ts -> good_group ts'.
  Proof.
    intros ts ts' P [ND [L I]]. split; [apply (Permutation_NoDup P ND)|]. apply Permutation_sym in P. split.
    - intros p Hp. apply L. apply (Permutation_in _ P Hp).
    - intros p q Hp Hq. apply I; apply (Permutation_in _ P); assumption.
  Qed.
  Theorem any_order : forall ts ts' n, Permutation ts ts' -> good_group ts -> known ts -> shaped n -> foldM term_of ts n = foldM term_of ts' n.
  Proof.
    intros ts ts' n P G K Sh. destruct (run_terms ts n G K Sh) as [n1 [E1 [Sh1 [W1 O1]]]].
    destruct (run_terms ts' n (good_permutation _ _ P G)) as [n2 [E2 [Sh2 [W2 O2]]]]; [intros p Hp; apply K; apply (Permutation_in _ (Permutation_sym P) Hp)|exact Sh|].
    rewrite E1, E2. f_equal. apply shaped_ext; [exact Sh1|exact Sh2|]. intros l. destruct (written_dec ts l) as [[p [Hp Hl]]|Hn].
    - rewrite (proj1 (W1 p l Hp Hl)), (proj1 (W2 p l (Permutation_in _ P Hp) Hl)). reflexivity.
    - rewrite O1 by exact Hn. rewrite O2; [reflexivity|]. intros p Hp. apply Hn. apply (Permutation_in _ (Permutation_sym P) Hp).
  Qed.

  Section Shared.
    Context {A : Type}.
    Notation prog := (prog (T + S) A).
    Variable size : nat.
    Hypothesis Hsize : (0 < size)%nat.
    Notation share_sites := (@share_sites T S A).
    Notation share_environments := (@share_environments T S blank A).
    (** F: what everybody shall have in the end *)
    Variable F : network.
    Definition good (Ns : nat -> network) (r : nat) (l : loc) : Prop := look (Ns r) l = look F l.
    Definition better (Ns Ns' : nat -> network) : Prop := forall r l, (r < size)%nat -> good Ns r l -> good Ns' r l.
    Definition all_shaped (Ns : nat -> network) : Prop := forall r, (r < size)%nat -> shaped (Ns r).
    Lemma valid_of_nat : forall root, (root < size)%nat -> valid_root (Z.of_nat root) size = true.
    Proof. intros root H. unfold valid_root. apply andb_true_intro. split; [apply Z.leb_le|apply Z.ltb_lt]; lia. Qed.

    Lemma share_sites_meets : forall root (k : nat -> network -> prog), (root < size)%nat -> forall sites Ns, all_shaped Ns -> (forall a, In a sites -> inside M N a) ->
      (forall a, In a sites -> good Ns root (inl a)) ->
      exists Ns', meets (state size (fun r => share_sites size r root sites (Ns r) (k r))) (state size (fun r => k r (Ns' r))) /\
        all_shaped Ns' /\ better Ns Ns' /\ forall r a, (r < size)%nat -> In a sites -> good Ns' r (inl a).
    Proof.
      intros root k Hroot. induction sites as [|[x y] sites IH]; intros Ns Sh I G.
      - exists Ns. cbn [SimpleUpdate.share_sites]. split; [apply m_refl|]. split; [exact Sh|]. split; [intros r l _ H; exact H|intros r a _ []].
      - destruct (lookup_inside M N _ x y (proj1 (Sh root Hroot)) (I _ (or_introl eq_refl))) as [t0 E0].
        set (Ns1 := fun r => mkNetwork (store x y t0 (lattice (Ns r))) (environment (Ns r))).
        assert (Pxy : 0 <= x /\ 0 <= y) by (destruct (I (x, y) (or_introl eq_refl)); cbn in *; lia).
        assert (L1 : forall r, (r < size)%nat -> forall l, look (Ns1 r) l = if loc_dec l (inl (x, y)) then Some (inl t0) else look (Ns r) l).
        { intros r Hr l. destruct (loc_dec l (inl (x, y))) as [->|Hl].
          - unfold Ns1. cbn [look lattice]. rewrite (lookup_store M N _ _ _ _ (proj1 (Sh r Hr)) (I _ (or_introl eq_refl))). reflexivity.
          - unfold Ns1. destruct l as [[x' y']|b]; cbn [look lattice environment]; [|reflexivity]. f_equal. apply lookup_store_other; try lia. intros E. inversion E. subst. apply Hl. reflexivity. }
        assert (F0 : look F (inl (x, y)) = Some (inl t0)).
        { assert (Q := G _ (or_introl eq_refl)). unfold good in Q. rewrite <- Q. cbn [look]. rewrite E0. reflexivity. }
        assert (B1 : better Ns Ns1).
        { intros r l Hr Hg. unfold good in *. rewrite L1 by exact Hr. destruct (loc_dec l (inl (x, y))) as [->|Hl]; [symmetry; exact F0|exact Hg]. }
        destruct (IH Ns1) as [Ns' [Mt [Sh' [B' G']]]].
        { intros r Hr. destruct (Sh r Hr) as [R Se]. split; [apply store_rectangle; exact R|exact Se]. }
        { intros a Ha. apply I. right. exact Ha. }
        { intros a Ha. apply B1; [exact Hroot|]. apply G. right. exact Ha. }
        exists Ns'. split; [|split; [exact Sh'|split]].
        + set (val := fun r => match lookup x y (lattice (Ns r)) with Some t => @inl T S t | None => inl t0 end).
          set (K := fun r (v : T + S) => match v with inl t => attempt (set_site (Ns r) x y t) (fun n => share_sites size r root sites n (k r)) | inr _ => Stop UB end).
          rewrite (state_ext size _ (fun r => broadcast size r (Z.of_nat root) (val r) (K r))).
          * eapply meets_trans; [apply (broadcast_step size (Z.of_nat root) val K (valid_of_nat root Hroot))|]. rewrite Nat2Z.id.
            rewrite (state_ext size _ (fun r => share_sites size r root sites (Ns1 r) (k r))); [exact Mt|]. intros r Hr. unfold K, val. rewrite E0.
            unfold set_site, get_site. destruct (lookup_inside M N _ x y (proj1 (Sh r Hr)) (I _ (or_introl eq_refl))) as [t E]. rewrite E. reflexivity.
          * intros r Hr. cbn [SimpleUpdate.share_sites]. unfold get_site at 1, val. destruct (lookup_inside M N _ x y (proj1 (Sh r Hr)) (I _ (or_introl eq_refl))) as [t E]. rewrite E. reflexivity.
        + intros r l Hr Hg. apply B'; [exact Hr|]. apply B1; assumption.
        + intros r a Hr [<-|Ha]; [|apply G'; assumption]. apply B'; [exact Hr|]. unfold good. rewrite L1 by exact Hr. destruct (loc_dec (inl (x, y)) (inl (x, y))); [symmetry; exact F0|congruence].
    Qed.
    Lemma share_environments_meets : forall root (k : nat -> network -> prog), (root < size)%nat -> forall bs Ns, all_shaped Ns ->
      (forall b, In b bs -> good Ns root (inr b) /\ look (Ns root) (inr b) <> None) ->
      exists Ns', meets (state size (fun r => share_environments size r root bs (Ns r) (k r))) (state size (fun r => k r (Ns' r))) /\
        all_shaped Ns' /\ better Ns Ns' /\ forall r b, (r < size)%nat -> In b bs -> good Ns' r (inr b).
    Proof.
      intros root k Hroot. induction bs as [|b bs IH]; intros Ns Sh G.
      - exists Ns. cbn [SimpleUpdate.share_environments]. split; [apply m_refl|]. split; [exact Sh|]. split; [intros r l _ H; exact H|intros r a _ []].
      - destruct (G b (or_introl eq_refl)) as [Gb Db]. destruct (mfind b (environment (Ns root))) as [s0|] eqn:E0; [|cbn [look] in Db; rewrite E0 in Db; destruct (Db eq_refl)].
        set (of := fun r => match mfind b (environment (Ns r)) with Some s => s | None => blank end).
        set (Ns1 := fun r => set_environment (set_environment (Ns r) b (of r)) b s0).
        assert (L1 : forall r, (r < size)%nat -> forall l, look (Ns1 r) l = if loc_dec l (inr b) then Some (inr s0) else look (Ns r) l).
        { intros r Hr l. destruct (loc_dec l (inr b)) as [->|Hl].
          - unfold Ns1. cbn [look environment set_environment]. rewrite mfind_mset_same. reflexivity.
          - unfold Ns1. destruct l as [[x' y']|b']; cbn [look lattice environment set_environment]; [reflexivity|]. f_equal. rewrite !mfind_mset_other by congruence. reflexivity. }
        assert (F0 : look F (inr b) = Some (inr s0)).
        { unfold good in Gb. rewrite <- Gb. cbn [look]. rewrite E0. reflexivity. }
        assert (B1 : better Ns Ns1).
        { intros r l Hr Hg. unfold good in *. rewrite L1 by exact Hr. destruct (loc_dec l (inr b)) as [->|Hl]; [symmetry; exact F0|exact Hg]. }
        destruct (IH Ns1) as [Ns' [Mt [Sh' [B' G']]]].
        { intros r Hr. destruct (Sh r Hr) as [R Se]. split; [exact R|]. cbn [Ns1 environment set_environment]. apply mset_sorted, mset_sorted. exact Se. }
        { intros c Hc. destruct (G c (or_intror Hc)) as [Gc Dc]. split; [apply B1; assumption|]. rewrite L1 by exact Hroot. destruct (loc_dec (inr c) (inr b)); [discriminate|exact Dc]. }
        exists Ns'. split; [|split; [exact Sh'|split]].
        + set (K := fun r (v : T + S) => match v with inr s => share_environments size r root bs (set_environment (set_environment (Ns r) b (of r)) b s) (k r) | inl _ => Stop UB end).
          rewrite (state_ext size _ (fun r => broadcast size r (Z.of_nat root) (inr (of r)) (K r))); [|reflexivity].
          eapply meets_trans; [apply (broadcast_step size (Z.of_nat root) (fun r => inr (of r)) K (valid_of_nat root Hroot))|]. rewrite Nat2Z.id.
          rewrite (state_ext size _ (fun r => share_environments size r root bs (Ns1 r) (k r))); [exact Mt|]. intros r Hr. unfold K, Ns1. unfold of at 2. rewrite E0. reflexivity.
        + intros r l Hr Hg. apply B'; [exact Hr|]. apply B1; assumption.
        + intros r a Hr [<-|Ha]; [|apply G'; assumption]. apply B'; [exact Hr|]. unfold good. rewrite L1 by exact Hr. destruct (loc_dec (inr b) (inr b)); [symmetry; exact F0|congruence].
    Qed.
    Lemma share_terms_meets : forall (k : nat -> network -> prog) ips Ns, all_shaped Ns ->
      (forall i p, In (i, p) ips -> (local_term p /\ forall a, In a p -> inside M N a) /\ forall l, In l (writes p) -> good Ns (i mod size) l /\ look F l <> None) ->
      exists Ns', meets (state size (fun r => share_terms blank size r ips (Ns r) (k r))) (state size (fun r => k r (Ns' r))) /\
        all_shaped Ns' /\ better Ns Ns' /\ forall r i p l, (r < size)%nat -> In (i, p) ips -> In l (writes p) -> good Ns' r l.
    Proof.
      intros k. induction ips as [|[i p] ips IH]; intros Ns Sh H.
      - exists Ns. cbn [share_terms]. split; [apply m_refl|]. split; [exact Sh|]. split; [intros r l _ Hg; exact Hg|intros r i p l _ []].
      - destruct (H i p (or_introl eq_refl)) as [[Lp Ip] Gp]. destruct (writes_environment p Lp) as [bs Ebs].
        assert (Hroot : (i mod size < size)%nat) by (apply Nat.mod_upper_bound; lia).
        set (k2 := fun r n => share_terms blank size r ips n (k r)).
        set (k1 := fun r n => share_environments size r (i mod size) bs n (k2 r)).
        destruct (share_sites_meets (i mod size) k1 Hroot p Ns Sh Ip) as [Ns1 [M1 [Sh1 [B1 G1]]]].
        { intros a Ha. apply Gp. unfold writes. apply in_app_iff. left. apply in_map. exact Ha. }
        destruct (share_environments_meets (i mod size) k2 Hroot bs Ns1 Sh1) as [Ns2 [M2 [Sh2 [B2 G2]]]].
        { intros b Hb. destruct (Gp (inr b)) as [Gb Db]; [unfold writes; rewrite Ebs; apply in_app_iff; right; apply in_map; exact Hb|].
          assert (Q : good Ns1 (i mod size) (inr b)) by (apply B1; assumption). split; [exact Q|]. rewrite Q. exact Db. }
        destruct (IH Ns2 Sh2) as [Ns3 [M3 [Sh3 [B3 G3]]]].
        { intros i' p' Hi. destruct (H i' p' (or_intror Hi)) as [Lp' Gp']. split; [exact Lp'|]. intros l Hl. destruct (Gp' l Hl) as [Gl Dl]. split; [|exact Dl].
          assert (Hr' : (i' mod size < size)%nat) by (apply Nat.mod_upper_bound; lia). apply B2; [exact Hr'|]. apply B1; assumption. }
        exists Ns3. split; [|split; [exact Sh3|split]].
        + rewrite (state_ext size _ (fun r => share_sites size r (i mod size) p (Ns r) (k1 r))).
          * eapply meets_trans; [exact M1|]. eapply meets_trans; [exact M2|]. exact M3.
          * intros r Hr. cbn [share_terms]. rewrite Ebs. reflexivity.
        + intros r l Hr Hg. apply B3; [exact Hr|]. apply B2; [exact Hr|]. apply B1; assumption.
        + intros r i' p' l Hr [E|Hi] Hl; [|apply (G3 r i' p' l); assumption]. injection E as <- <-. apply B3; [exact Hr|].
          unfold writes in Hl. rewrite Ebs in Hl. apply in_app_iff in Hl. destruct Hl as [Hl|Hl]; apply in_map_iff in Hl; destruct Hl as [c [<- Hc]].
          * apply B2; [exact Hr|]. apply G1; assumption.
          * apply G2; assumption.
    Qed.
  End Shared.

  Lemma in_numbered : forall B i (l : list B) j b, In (j, b) (numbered i l) -> In b l.
  Proof. intros B i l. revert i. induction l as [|a l IH]; intros i j b H; [destruct H|]. destruct H as [H|H]; [injection H as <- <-; left; reflexivity|right; apply (IH (Datatypes.S i) j b H)]. Qed.
  Lemma numbered_in : forall B i (l : list B) b, In b l -> exists j, In (j, b) (numbered i l).
  Proof.
    intros B i l. revert i. induction l as [|a l IH]; intros i b H; [destruct H|]. destruct H as [<-|H]; [exists i; left; reflexivity|]. destruct (IH (Datatypes.S i) b H) as [j Hj]. exists j. right. exact Hj.
  Qed.
  Lemma my_terms_in : forall size rank g p, In p (my_terms size rank g) <-> exists j, In (j, p) (numbered 0 g) /\ (j mod size)%nat = rank.
  Proof.
    intros size rank g p. unfold my_terms. rewrite in_map_iff. split.
    - intros [[j q] [<- H]]. apply filter_In in H. destruct H as [H1 H2]. apply Nat.eqb_eq in H2. exists j. split; [exact H1|exact H2].
    - intros [j [H1 H2]]. exists (j, p). split; [reflexivity|]. apply filter_In. split; [exact H1|]. apply Nat.eqb_eq. exact H2.
  Qed.
  Lemma my_terms_nodup : forall size rank g, NoDup g -> NoDup (my_terms size rank g).
  Proof.
    assert (Q : forall g i f, NoDup g -> NoDup (map snd (filter f (@numbered positions i g)))).
    { induction g as [|p g IH]; intros i f ND; [constructor|]. inversion ND; subst. cbn. destruct (f (i, p)); [|apply IH; assumption]. cbn. constructor; [|apply IH; assumption].
      intros Hin. apply in_map_iff in Hin. destruct Hin as [[j q] [E Hin]]. cbn in E. subst q. apply filter_In in Hin. destruct Hin as [Hin _]. apply in_numbered in Hin. contradiction. }
    intros size rank g ND. apply Q. exact ND.
  Qed.
  Lemma good_subgroup : forall g g', good_group g -> NoDup g' -> (forall p, In p g' -> In p g) -> good_group g'.
  Proof. intros g g' [ND [L I]] ND' Hin. split; [exact ND'|]. split; [intros p Hp; apply L, Hin, Hp|]. intros p q Hp Hq. apply I; apply Hin; assumption. Qed.

  Notation group_update := (group_update multiple site_update bond_update normalized blank).
  Theorem group_meets : forall A size (k : nat -> network -> prog (T + S) A) g n, (0 < size)%nat -> good_group g -> known g -> shaped n ->
    exists n', foldM term_of g n = Ok n' /\ shaped n' /\ meets (state size (fun r => group_update size r updater g n (k r))) (state size (fun r => k r n')).
  Proof.
    intros A size k g n Hs G K Sh. destruct (run_terms g n G K Sh) as [F [EF [ShF [WF OF]]]]. exists F. split; [exact EF|]. split; [exact ShF|].
    assert (Sub : forall r p, In p (my_terms size r g) -> In p g).
    { intros r p Hp. apply my_terms_in in Hp. destruct Hp as [j [Hj _]]. apply (in_numbered _ _ _ _ _ Hj). }
    assert (Loc : forall r, exists n', foldM term_of (my_terms size r g) n = Ok n' /\ shaped n' /\
      (forall p l, In p (my_terms size r g) -> In l (writes p) -> look n' l = outcome p n l /\ look n' l <> None) /\
      (forall l, (forall p, In p (my_terms size r g) -> ~ In l (writes p)) -> look n' l = look n l)).
    { intros r. apply run_terms; [apply (good_subgroup g); [exact G|apply my_terms_nodup, G|apply Sub]|intros p Hp; apply K, (Sub r p Hp)|exact Sh]. }
    set (Ns := fun r => match foldM term_of (my_terms size r g) n with Ok n' => n' | _ => n end).
    assert (HNs : forall r, foldM term_of (my_terms size r g) n = Ok (Ns r) /\ shaped (Ns r) /\
      (forall p l, In p (my_terms size r g) -> In l (writes p) -> look (Ns r) l = outcome p n l /\ look (Ns r) l <> None) /\
      (forall l, (forall p, In p (my_terms size r g) -> ~ In l (writes p)) -> look (Ns r) l = look n l)).
    { intros r. destruct (Loc r) as [n' [E H]]. unfold Ns. rewrite E. split; [reflexivity|exact H]. }
    destruct (share_terms_meets size Hs F k (numbered 0 g) Ns) as [Ns' [Mt [Sh' [B' G']]]].
    { intros r Hr. apply HNs. }
    { intros i p Hip. assert (Hp := in_numbered _ _ _ _ _ Hip). split; [apply (proj1 (proj2 G) p Hp)|]. intros l Hl. destruct (WF p l Hp Hl) as [W D]. split; [|exact D].
      unfold good. rewrite W. apply (proj1 (proj2 (proj2 (HNs (i mod size)%nat))) p l); [|exact Hl]. apply my_terms_in. exists i. split; [exact Hip|reflexivity]. }
    rewrite (state_ext size _ (fun r => share_terms blank size r (numbered 0 g) (Ns r) (k r))).
    - rewrite (state_ext size (fun r => k r F) (fun r => k r (Ns' r))); [exact Mt|]. intros r Hr. f_equal. symmetry. apply shaped_ext; [apply Sh'; exact Hr|exact ShF|].
      intros l. destruct (written_dec g l) as [[p [Hp Hl]]|Hn].
      + destruct (numbered_in _ 0 g p Hp) as [j Hj]. apply (G' r j p l Hr Hj Hl).
      + apply B'; [exact Hr|]. unfold good. rewrite OF by exact Hn. apply (HNs r). intros p Hp. apply Hn, (Sub r p Hp).
    - intros r Hr. unfold SimpleUpdate.group_update. rewrite (proj1 (HNs r)). reflexivity.
  Qed.

  (** ** Groups of the schedule *)
  Lemma separate_independent : forall p q, local_term p -> share_no_site p q -> independent p q.
  Proof.
    intros p q L D l Hw Hr. unfold reads in Hr. apply in_app_iff in Hr. unfold writes in Hw. apply in_app_iff in Hw. destruct l as [s|b].
    - destruct Hr as [Hr|Hr]; [|apply in_map_iff in Hr; destruct Hr as [? [? _]]; discriminate]. destruct Hw as [Hw|Hw].
      + apply in_map_iff in Hr, Hw. destruct Hr as [x [Ex Hx]], Hw as [y [Ey Hy]]. inversion Ex. inversion Ey. subst. apply (D s Hy Hx).
      + destruct (related_environment p); try destruct Hw. apply in_map_iff in Hw. destruct Hw as [? [? _]]. discriminate.
    - destruct Hr as [Hr|Hr]; [apply in_map_iff in Hr; destruct Hr as [? [? _]]; discriminate|]. destruct Hw as [Hw|Hw]; [apply in_map_iff in Hw; destruct Hw as [? [? _]]; discriminate|].
      apply in_map_iff in Hr. destruct Hr as [x [Ex Hx]]. inversion Ex. subst x. clear Ex. apply in_flat_map in Hx. destruct Hx as [c [Hc Hb]].
      assert (Q : In c p); [|apply (D c Q Hc)]. clear D Hc. destruct L as [[a ->]|[a [a' [-> Ha]]]]; [destruct a; destruct Hw|].
      destruct c as [ci cj]. cbn [bonds_at fst snd] in Hb.
      destruct (neighbours a a' Ha) as [[i [j E]]|[[i [j E]]|[[i [j E]]|[i [j E]]]]]; inversion E; subst; clear E Ha; unfold related_environment in Hw; revert Hw; bools; cbn; intros [Hw|[]];
        inversion Hw; subst; clear Hw; destruct Hb as [Hb|[Hb|[Hb|[Hb|[]]]]]; inversion Hb; subst; first [left; f_equal; lia|right; left; f_equal; lia].
  Qed.
  Lemma schedule_good : forall keys gs g, NoDup keys -> oriented keys -> (forall p, In p keys -> local_term p /\ forall a, In a p -> inside M N a) ->
    simple_update_sequence keys = Ok gs -> In g gs -> good_group g /\ forall p, In p g -> In p keys.
  Proof.
    intros keys gs g ND Or L H Hg. assert (Sub : forall p, In p g -> In p keys).
    { intros p Hp. destruct (sequence_ok keys gs H) as [-> _]. destruct (in_groups keys g p Hg Hp) as [k [_ [_ [_ K]]]]. exact K. }
    split; [|exact Sub]. split; [|split].
    - destruct (sequence_ok keys gs H) as [-> _]. rewrite groups_tests in Hg. apply in_map_iff in Hg. destruct Hg as [k [<- _]]. apply NoDup_filter. exact ND.
    - intros p Hp. apply L, Sub, Hp.
    - intros p q Hp Hq Ne. apply separate_independent; [apply L, Sub, Hp|]. apply (simple_update_disjoint keys gs g); assumption.
  Qed.
  (** changing an environment that another term of the group writes does not change what a term does *)
  Theorem environment_unread : forall (keys : list positions) gs g (p q : positions) bs b s u n, NoDup keys -> oriented keys -> (forall p, In p keys -> local_term p /\ forall a, In a p -> inside M N a) ->
    simple_update_sequence keys = Ok gs -> In g gs -> In p g -> In q g -> p <> q -> related_environment q = Ok bs -> In b bs -> shaped n ->
    single_term p u (set_environment n b s) = bind (single_term p u n) (fun n' => Ok (set_environment n' b s)).
  Proof.
    intros keys gs g p q bs b s u n ND Or L H Hg Hp Hq Ne Eb Hb Sh. destruct (schedule_good keys gs g ND Or L H Hg) as [[_ [Lg Ig]] Sub].
    destruct (Lg p Hp) as [Lp Ip]. assert (Sh' : shaped (set_environment n b s)) by (destruct Sh as [R Se]; split; [exact R|apply mset_sorted; exact Se]).
    destruct (term_framed p u Lp Ip n Sh) as [n1 [E1 [S1 [O1 [D1 F1]]]]]. destruct (term_framed p u Lp Ip _ Sh') as [n2 [E2 [S2 [O2 [D2 F2]]]]].
    rewrite E1, E2. cbn [bind]. f_equal.
    assert (Wb : In (inr b) (writes q)) by (unfold writes; rewrite Eb; apply in_app_iff; right; apply in_map; exact Hb).
    assert (Rb : ~ In (inr b) (reads p)) by (apply (Ig q p Hq Hp); [congruence|exact Wb]).
    assert (LE : forall m l, l <> inr b -> look (set_environment m b s) l = look m l).
    { intros m [[x y]|c] Hl; [reflexivity|]. cbn [look set_environment environment]. rewrite mfind_mset_other; [reflexivity|congruence]. }
    assert (LB : forall m, look (set_environment m b s) (inr b) = Some (inr s)).
    { intros m. cbn [look set_environment environment]. rewrite mfind_mset_same. reflexivity. }
    apply shaped_ext; [exact S2|destruct S1 as [R Se]; split; [exact R|apply mset_sorted; exact Se]|]. intros l. destruct (loc_dec l (inr b)) as [->|Hl].
    - rewrite LB. rewrite O2; [apply LB|]. intros W. apply Rb. apply writes_reads; assumption.
    - rewrite LE by exact Hl. destruct (in_dec loc_dec l (writes p)) as [W|W].
      + apply (F1 (set_environment n b s) n2 Sh'); [|exact E2|exact W]. intros l' Hr. apply LE. intros ->. contradiction.
      + rewrite O2, O1 by exact W. apply LE. exact Hl.
  Qed.
  Lemma groups_meets : forall A size gs (k : nat -> network -> prog (T + S) A) n, (0 < size)%nat -> (forall g, In g gs -> good_group g /\ known g) -> shaped n ->
    exists n', foldM term_of (concat gs) n = Ok n' /\ shaped n' /\
      meets (state size (fun r => groups_update multiple site_update bond_update normalized blank size r updater gs n (k r))) (state size (fun r => k r n')).
  Proof.
    intros A size gs k. induction gs as [|g gs IH]; intros n Hs G Sh.
    - exists n. split; [reflexivity|]. split; [exact Sh|apply m_refl].
    - destruct (G g (or_introl eq_refl)) as [Gg Kg].
      destruct (group_meets A size (fun r n => groups_update multiple site_update bond_update normalized blank size r updater gs n (k r)) g n Hs Gg Kg Sh) as [n1 [E1 [S1 M1]]].
      destruct (IH n1 Hs (fun g' H' => G g' (or_intror H')) S1) as [n2 [E2 [S2 M2]]]. exists n2. split; [|split; [exact S2|]].
      + cbn [concat]. rewrite foldM_app, E1. exact E2.
      + eapply meets_trans; [exact M1|exact M2].
  Qed.
  Lemma steps_meets : forall A size gs (k : nat -> network -> prog (T + S) A) steps n, (0 < size)%nat -> (forall g, In g gs -> good_group g /\ known g) -> shaped n ->
    exists n', foldM term_of (sweeps steps gs) n = Ok n' /\ shaped n' /\
      meets (state size (fun r => steps_update multiple site_update bond_update normalized blank steps size r updater gs n (k r))) (state size (fun r => k r n')).
  Proof.
    intros A size gs k. induction steps as [|steps IH]; intros n Hs G Sh.
    - exists n. split; [reflexivity|]. split; [exact Sh|apply m_refl].
    - destruct (groups_meets A size gs (fun r n => groups_update multiple site_update bond_update normalized blank size r updater (rev gs) n (fun n => steps_update multiple site_update bond_update normalized blank steps size r updater gs n (k r))) n Hs G Sh) as [n1 [E1 [S1 M1]]].
      destruct (groups_meets A size (rev gs) (fun r n => steps_update multiple site_update bond_update normalized blank steps size r updater gs n (k r)) n1 Hs) as [n2 [E2 [S2 M2]]]; [intros g Hg; apply G; apply in_rev; exact Hg|exact S1|].
      destruct (IH n2 Hs G S2) as [n3 [E3 [S3 M3]]]. exists n3. split; [|split; [exact S3|]].
      + cbn [sweeps]. rewrite !foldM_app, E1. cbn [bind]. rewrite foldM_app, E2. exact E3.
      + eapply meets_trans; [exact M1|]. eapply meets_trans; [exact M2|exact M3].
  Qed.
End Frame.

Section Update.
  Context {T S U : Type}.
  Variable multiple : T -> S -> side -> bool -> T.
  Variable site_update : T -> U -> T.
  Variable bond_update : bool -> T -> T -> U -> T * S * T.
  Variable normalized : T -> T.
  Variable blank : S.
  Variables M N : Z.
  Variable exponential : nat -> nat -> U.
  Notation term_of := (term_of multiple site_update bond_update normalized).
  Definition step_updater pu (ph : positions * nat) :=
      let (pool, updater) := (pu : list (nat * U) * list (positions * U)) in
      let (p, h) := ph in
      match mfind h pool with
      | Some u => (pool, mset p u updater)
      | None => let u := exponential (length p) h in (mset h u pool, mset p u updater)
      end.
  Lemma updater_known : forall hs pool updater p, (In p (map fst hs) \/ exists u, mfind p updater = Some u) ->
    exists u, mfind p (snd (fold_left step_updater hs (pool, updater))) = Some u.
  Proof.
    induction hs as [|[q h] hs IH]; intros pool updater p H.
    - destruct H as [[]|H]. exact H.
    - cbn [fold_left]. unfold step_updater at 2. destruct (mfind h pool) as [u|]; apply IH.
      + destruct (ord_dec p q) as [->|Hn]; [right; exists u; apply mfind_mset_same|]. cbn [map fst] in H. destruct H as [[H|H]|[v H]]; [congruence|left; exact H|]. right. exists v. rewrite mfind_mset_other; [exact H|congruence].
      + destruct (ord_dec p q) as [->|Hn]; [right; eexists; apply mfind_mset_same|]. cbn [map fst] in H. destruct H as [[H|H]|[v H]]; [congruence|left; exact H|]. right. exists v. rewrite mfind_mset_other; [exact H|congruence].
  Qed.
  (** every term is updated with the exponential of its own operator *)
  Theorem updater_exponential : forall hs, (forall p q h, In (p, h) hs -> In (q, h) hs -> length p = length q) -> NoDup (map fst hs) ->
    forall p h, In (p, h) hs -> mfind p (make_updater exponential hs) = Some (exponential (length p) h).
  Proof.
    intros hs Len. change (make_updater exponential hs) with (snd (fold_left step_updater hs ([], []))).
    assert (Q : forall l pool updater, (forall p h, In (p, h) l -> In (p, h) hs) -> (forall h u p, mfind h pool = Some u -> In (p, h) hs -> u = exponential (length p) h) -> NoDup (map fst l) ->
      (forall p h, In (p, h) l -> mfind p (snd (fold_left step_updater l (pool, updater))) = Some (exponential (length p) h)) /\
      (forall p, ~ In p (map fst l) -> mfind p (snd (fold_left step_updater l (pool, updater))) = mfind p updater)).
    { induction l as [|[q h] l IH]; intros pool updater Sub Inv ND.
      - split; [intros p h []|reflexivity].
      - cbn [map fst] in ND. inversion ND as [|? ? Hq ND']; subst.
        assert (Hin : In (q, h) hs) by (apply Sub; left; reflexivity).
        set (st := step_updater (pool, updater) (q, h)).
        assert (St : exists pool', st = (pool', mset q (exponential (length q) h) updater) /\ forall h' u p, mfind h' pool' = Some u -> In (p, h') hs -> u = exponential (length p) h').
        { unfold st, step_updater. destruct (mfind h pool) as [u|] eqn:E.
          - exists pool. split; [|exact Inv]. rewrite (Inv h u q E Hin). reflexivity.
          - eexists. split; [reflexivity|]. intros h' u p Hf Hp. destruct (ord_dec h' h) as [->|Hn].
            + rewrite mfind_mset_same in Hf. injection Hf as <-. rewrite (Len p q h Hp Hin). reflexivity.
            + rewrite mfind_mset_other in Hf by congruence. apply (Inv h' u p Hf Hp). }
        destruct St as [pool' [Est Inv']]. cbn [fold_left]. fold st.
        rewrite Est. destruct (IH pool' (mset q (exponential (length q) h) updater)) as [I1 I2]; [intros p' h' H'; apply Sub; right; exact H'|exact Inv'|exact ND'|]. split.
        + intros p h' [E|Hp]; [injection E as <- <-|apply I1; exact Hp]. rewrite I2 by exact Hq. apply mfind_mset_same.
        + intros p Hp. rewrite I2 by (intros H'; apply Hp; right; exact H'). apply mfind_mset_other. intros ->. apply Hp. left. reflexivity. }
    intros ND p h Hp. apply (Q hs [] []); try assumption; [intros; assumption|intros h' u p' H'; discriminate H'].
  Qed.
  Theorem one_group : forall (updater : list (positions * U)) (keys : list positions) gs g size n, NoDup keys -> oriented keys -> (forall p, In p keys -> local_term p /\ forall a, In a p -> inside M N a) ->
    (forall p, In p keys -> exists u, mfind p updater = Some u) -> simple_update_sequence keys = Ok gs -> In g gs -> (0 < size)%nat -> shaped M N n ->
    exists n', (forall order, Permutation order g -> foldM (term_of updater) order n = Ok n') /\
      always_reaches (launch size (fun r => group_update multiple site_update bond_update normalized blank size r updater g n (fun n => Stop (Ok n)))) (finished size (fun _ => Stop (Ok n'))).
  Proof.
    intros updater keys gs g size n ND Or L K H Hg Hs Sh. destruct (schedule_good M N keys gs g ND Or L H Hg) as [Gg Sub].
    assert (Kg : known updater g) by (intros p Hp; apply K, Sub, Hp).
    destruct (group_meets multiple site_update bond_update normalized blank M N updater _ size (fun _ n => Stop (Ok n)) g n Hs Gg Kg Sh) as [n' [E [S' Mt]]]. exists n'. split.
    - intros order P. rewrite <- E. symmetry. apply (any_order multiple site_update bond_update normalized blank M N updater); try assumption. apply Permutation_sym. exact P.
    - apply meets_always; [apply (finished_stopped size (fun _ => Ok n'))|exact Mt].
  Qed.
  Theorem whole_update : forall steps (hs : list (positions * nat)) size n, NoDup (map fst hs) -> oriented (map fst hs) -> (forall p, In p (map fst hs) -> local_term p /\ forall a, In a p -> inside M N a) ->
    (0 < size)%nat -> shaped M N n ->
    exists gs n', simple_update_sequence (map fst hs) = Ok gs /\ foldM (term_of (make_updater exponential hs)) (sweeps steps gs) n = Ok n' /\
      always_reaches (launch size (fun r => simple_update multiple site_update bond_update normalized blank exponential steps size r hs n)) (finished size (fun _ => Stop (Ok n'))).
  Proof.
    intros steps hs size n ND Or L Hs Sh. destruct (simple_update_succeeds M N (map fst hs) ND L) as [gs E]. exists gs.
    destruct (steps_meets multiple site_update bond_update normalized blank M N (make_updater exponential hs) _ size gs (fun _ n => Stop (Ok n)) steps n Hs) as [n' [E' [S' Mt]]].
    { intros g Hg. destruct (schedule_good M N (map fst hs) gs g ND Or L E Hg) as [Gg Sub]. split; [exact Gg|]. intros p Hp. apply updater_known. left. apply Sub, Hp. }
    { exact Sh. }
    exists n'. split; [exact E|]. split; [exact E'|]. apply meets_always; [apply (finished_stopped size (fun _ => Ok n'))|].
    change (meets (state size (fun r => simple_update multiple site_update bond_update normalized blank exponential steps size r hs n)) (state size (fun _ => Stop (Ok n')))).
    rewrite (state_ext size _ (fun r => steps_update multiple site_update bond_update normalized blank steps size r (make_updater exponential hs) gs n (fun n => Stop (Ok n)))); [exact Mt|].
    intros r Hr. unfold simple_update. rewrite E. reflexivity.
  Qed.
End Update.

(** ** The order of the sites of a bond *)
Section Order.
  Context {T S U : Type}.
  Lemma order_ignored : forall (multiple : T -> S -> side -> bool -> T) (site_update : T -> U -> T) (bond_update : bool -> T -> T -> U -> T * S * T) (normalized : T -> T) a b u (n : network T S),
    single_term multiple site_update bond_update normalized [b; a] u n = single_term multiple site_update bond_update normalized [a; b] u n.
  Proof.
    intros multiple site_update bond_update normalized [x y] [x' y'] u n. unfold single_term. cbn [fst snd].
    destruct (Z.eqb_spec x' x), (Z.eqb_spec x x'), (Z.eqb_spec y' y), (Z.eqb_spec y y'), (Z.eqb_spec y' (y + 1)), (Z.eqb_spec (y' + 1) y), (Z.eqb_spec y (y' + 1)), (Z.eqb_spec (y + 1) y'),
      (Z.eqb_spec x' (x + 1)), (Z.eqb_spec (x' + 1) x), (Z.eqb_spec x (x' + 1)), (Z.eqb_spec (x + 1) x'); try lia; cbn [andb]; reflexivity.
  Qed.
  Variables (first second : U -> T -> T) (s0 : S).
  Lemma ascending_order : forall M N a b u n t t', adjacent a b -> fst a <= fst b -> snd a <= snd b -> inside M N a -> inside M N b -> shaped M N n ->
    lookup (fst a) (snd a) (lattice n) = Some t -> lookup (fst b) (snd b) (lattice n) = Some t' ->
    exists n', single_term (fun t (_ : S) _ _ => t) (fun t _ => t) (fun _ l r u => (first u l, s0, second u r)) (fun t => t) [a; b] u n = Ok n' /\
      lookup (fst a) (snd a) (lattice n') = Some (first u t) /\ lookup (fst b) (snd b) (lattice n') = Some (second u t').
  Proof.
    intros M N [x y] [x' y'] u n t t' Ad Hx Hy Ia Ib Sh Ht Ht'. cbn [fst snd] in *. unfold adjacent in Ad. cbn [fst snd] in Ad.
    assert (TA : forall m t i j l d, try_all (fun t (_ : S) (_ : side) (_ : bool) => t) m t i j l d = t :> T).
    { intros m t0 i j l d. unfold try_all. induction l as [|e l IH]; cbn; [reflexivity|]. rewrite <- IH at 2. f_equal. unfold try_multiple. destruct (mfind _ _); reflexivity. }
    destruct (Z.eq_dec x x') as [<-|Hn].
    - assert (y' = y + 1) as -> by lia. assert (Q := horizontal_result (fun t (_ : S) (_ : side) (_ : bool) => t) (fun _ l r u => (first u l, s0, second u r)) (fun t => t) M N n x y u t t' Ht Ht' Sh).
      cbn zeta in Q. rewrite !TA in Q. eexists. split; [|].
      + unfold single_term. cbn [fst snd]. rewrite Z.eqb_refl. destruct (Z.eqb_spec y (y + 1 + 1)); [lia|]. rewrite Z.eqb_refl. cbn [andb]. exact Q.
      + cbn [lattice fst snd]. destruct Ia as [? ?], Ib as [? ?]. cbn [fst snd] in *. split.
        * rewrite lookup_store_other by (try lia; intros E; inversion E; lia). apply (lookup_store M N); [apply Sh|split; cbn; lia].
        * apply (lookup_store M N); [apply store_rectangle, Sh|split; cbn; lia].
    - assert (x' = x + 1 /\ y' = y) as [-> ->] by lia. assert (Q := vertical_result (fun t (_ : S) (_ : side) (_ : bool) => t) (fun _ l r u => (first u l, s0, second u r)) (fun t => t) M N n x y u t t' Ht Ht' Sh).
      cbn zeta in Q. rewrite !TA in Q. eexists. split; [|].
      + unfold single_term. cbn [fst snd]. destruct (Z.eqb_spec x (x + 1)); [lia|]. rewrite Z.eqb_refl. destruct (Z.eqb_spec x (x + 1 + 1)); [lia|]. rewrite Z.eqb_refl. cbn [andb]. exact Q.
      + cbn [lattice fst snd]. destruct Ia as [? ?], Ib as [? ?]. cbn [fst snd] in *. split.
        * rewrite lookup_store_other by (try lia; intros E; inversion E; lia). apply (lookup_store M N); [apply Sh|split; cbn; lia].
        * apply (lookup_store M N); [apply store_rectangle, Sh|split; cbn; lia].
  Qed.
End Order.
Lemma order_matters : ~ forall (T S U : Type) (first second : U -> T -> T) (s0 : S) M N a b u n t t', adjacent a b -> inside M N a -> inside M N b -> shaped M N n ->
    lookup (fst a) (snd a) (lattice n) = Some t -> lookup (fst b) (snd b) (lattice n) = Some t' ->
    exists n', single_term (fun t (_ : S) _ _ => t) (fun t _ => t) (fun _ l r u => (first u l, s0, second u r)) (fun t => t) [a; b] u n = Ok n' /\
      lookup (fst a) (snd a) (lattice n') = Some (first u t) /\ lookup (fst b) (snd b) (lattice n') = Some (second u t').
Proof.
  intros H. specialize (H Z unit unit (fun _ => Z.add 10) (fun _ => Z.mul 10) tt 1 2 (0, 1) (0, 0) tt (mkNetwork [[1; 2]] []) 2 1).
  destruct H as [n' [E [H1 H2]]].
  - reflexivity.
  - split; cbn; lia.
  - split; cbn; lia.
  - split; [split; [reflexivity|intros row [<-|[]]; reflexivity]|constructor].
  - reflexivity.
  - reflexivity.
  - vm_compute in E. assert (Q := Ok_inj _ _ _ E). subst n'. vm_compute in H1. discriminate.
Qed.
