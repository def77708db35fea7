(** loop_edge visits exactly the tuples of the product, in lexicographic order. *)
From Coq Require Import List Bool Arith Lia.
From Verif Require Import Base.Outcome Base.SMap Model.Symmetry Model.Edge Spec.Blocks Proof.SymmetryFacts.
Import ListNotations.

Section Tuples.
  Context {A : Type}.

  Lemma in_tuples : forall (maps : list (list A)) (t : list A), In t (tuples maps) <-> Forall2 (fun m x => In x m) maps t.
  Proof.
    induction maps as [|m ms IH]; simpl; intro t.
    - split.
      + intros [<-|[]]. constructor.
      + intro H. inversion H. now left.
    - rewrite in_flat_map. split.
      + intros [x [Hx Ht]]. apply in_map_iff in Ht as [t' [<- Ht']]. constructor; auto. now apply IH.
      + intro H. inversion H; subst. exists y. split; auto. apply in_map. now apply IH.
  Qed.

  Lemma tuples_length : forall (maps : list (list A)) t, In t (tuples maps) -> length t = length maps.
  Proof. intros maps t H. apply in_tuples in H. induction H; simpl; congruence. Qed.

  Lemma length_flat_map_const : forall B C (f : B -> list C) (l : list B) n,
    (forall x, length (f x) = n) -> length (flat_map f l) = length l * n.
  Proof. induction l; simpl; intros; auto. rewrite app_length, H, (IHl n); auto. Qed.

  Lemma tuples_nil_iff : forall maps : list (list A), tuples maps = [] <-> In [] maps.
  Proof.
    induction maps as [|m ms IH]; simpl; split; intro H.
    - discriminate.
    - contradiction.
    - destruct m as [|x m]; [now left|right]. simpl in H. apply app_eq_nil in H as [H _].
      apply map_eq_nil in H. now apply IH.
    - destruct H as [->|H]; [reflexivity|]. apply IH in H. rewrite H. induction m; simpl; auto.
  Qed.
End Tuples.

Section Loop.
  Context {S : Type} {SS : Sym S}.
  Notation entry := (S * nat)%type.

  Lemma count_tuples_length : forall maps : list (list entry), length (tuples maps) = count_tuples maps.
  Proof.
    induction maps as [|m ms IH]; simpl; auto.
    unfold count_tuples in *. simpl. rewrite <- IH.
    apply length_flat_map_const. intros. apply map_length.
  Qed.

  (** tuples still to visit, the current one included *)
  Fixpoint rest (its maps : list (list entry)) : list (list entry) :=
    match its, maps with
    | (x :: it) :: its', _ :: ms =>
        map (cons x) (rest its' ms) ++ flat_map (fun y => map (cons y) (tuples ms)) it
    | _, _ => [[]]
    end.

  Definition wf_its (its maps : list (list entry)) : Prop :=
    Forall2 (fun it m => it <> [] /\ exists pre, m = pre ++ it) its maps.

  Lemma rest_start : forall maps, (forall m, In m maps -> m <> []) -> rest maps maps = tuples maps.
  Proof.
    induction maps as [|m ms IH]; intro H; [reflexivity|].
    destruct m as [|x m]; [exfalso; apply (H []); [now left|reflexivity]|].
    simpl. rewrite IH; auto. intros; apply H; now right.
  Qed.
  Lemma wf_start : forall maps, (forall m, In m maps -> m <> []) -> wf_its maps maps.
  Proof.
    induction maps as [|m ms IH]; intro H; constructor.
    - split; [apply H; now left|]. exists []. reflexivity.
    - apply IH. intros; apply H; now right.
  Qed.
  Lemma heads_some : forall its maps, wf_its its maps -> exists cur, heads its = Some cur.
  Proof.
    induction 1 as [|it m its ms [H1 H2] H IH]; simpl; eauto.
    destruct it as [|x it]; [congruence|]. destruct IH as [cur ->]. eauto.
  Qed.
  Lemma heads_start : forall maps : list (list entry), (forall m, In m maps -> m <> []) ->
    exists cur, heads maps = Some cur /\ In cur (tuples maps).
  Proof.
    intros maps H. destruct (heads_some _ _ (wf_start _ H)) as [cur E]. exists cur. split; auto.
    apply in_tuples. revert cur E. clear H. induction maps as [|m ms IH]; simpl; intros cur E.
    - injection E as <-. constructor.
    - destruct m as [|x m]; [discriminate|]. destruct (heads ms) eqn:E2; [|discriminate].
      injection E as <-. constructor; [now left|]. auto.
  Qed.
  Lemma heads_in : forall its maps cur, wf_its its maps -> heads its = Some cur -> In cur (tuples maps).
  Proof.
    intros its maps cur H. revert cur. induction H as [|it m its ms [H1 [pre H2]] H IH]; simpl; intros cur E.
    - injection E as <-. now left.
    - destruct it as [|x it]; [discriminate|]. destruct (heads its) eqn:E2; [|discriminate].
      injection E as <-. apply in_flat_map. exists x. split.
      + subst m. apply in_or_app. right. now left.
      + apply in_map. auto.
  Qed.

  Lemma advance_spec : forall maps its pos cur,
    wf_its its maps -> (forall m, In m maps -> m <> []) -> heads its = Some cur ->
    match advance maps its pos with
    | None => rest its maps = [cur]
    | Some (its', p) =>
        wf_its its' maps /\ rest its maps = cur :: rest its' maps /\ pos <= p /\
        exists cur', heads its' = Some cur' /\ firstn (p - pos) cur = firstn (p - pos) cur'
    end.
  Proof.
    induction maps as [|m ms IH]; intros its pos cur Hwf Hne Hh; inversion Hwf as [|it m' its0 ms' [H1 [pre H2]] H3]; subst; simpl.
    - simpl in Hh. injection Hh as <-. reflexivity.
    - destruct it as [|x it]; [congruence|]. simpl in Hh.
      destruct (heads its0) as [cur0|] eqn:E0; [|discriminate]. injection Hh as <-.
      assert (Hne' : forall m, In m ms -> m <> []) by (intros; apply Hne; now right).
      specialize (IH its0 (1 + pos) cur0 H3 Hne' E0).
      change (1 + pos) with (Datatypes.S pos) in *.
      destruct (advance ms its0 (Datatypes.S pos)) as [[its'' p]|].
      + destruct IH as [W [R [P [cur' [Hc Hf]]]]]. repeat split.
        * constructor; [split; [discriminate|eauto]|exact W].
        * simpl. rewrite R. reflexivity.
        * lia.
        * exists (x :: cur'). simpl. rewrite Hc. split; auto.
          replace (p - pos) with (Datatypes.S (p - Datatypes.S pos)) by lia. simpl. now rewrite Hf.
      + destruct it as [|y it]; simpl.
        * rewrite IH. reflexivity.
        * repeat split.
          -- constructor; [split; [discriminate|]|now apply wf_start].
             exists (pre ++ [x]). now rewrite <- app_assoc.
          -- rewrite IH. rewrite rest_start by auto. reflexivity.
          -- lia.
          -- destruct (heads_some _ _ (wf_start _ Hne')) as [cur' E']. exists (y :: cur'). rewrite E'.
             split; auto. now rewrite Nat.sub_diag.
  Qed.

  Section Run.
    Context {St Abs : Type}.
    Variable maps : list (list entry).
    Variable operate : St -> list entry -> nat -> St * nat.
    Variable step : Abs -> list entry -> Abs.
    Variable Inv : Abs -> St -> list entry -> nat -> Prop.
    Hypothesis H_operate : forall abs st cur mc, In cur (tuples maps) -> Inv abs st cur mc ->
      Inv (step abs cur) (fst (operate st cur mc)) cur (snd (operate st cur mc)).
    Hypothesis H_weaken : forall abs st cur cur' mc k, In cur (tuples maps) -> In cur' (tuples maps) ->
      Inv abs st cur mc -> firstn k cur = firstn k cur' -> Inv abs st cur' (Nat.min mc k).

    Lemma loop_from_spec : forall fuel its mc st abs cur,
      wf_its its maps -> (forall m, In m maps -> m <> []) -> heads its = Some cur ->
      length (rest its maps) <= fuel -> Inv abs st cur mc ->
      exists st' cur' mc', loop_edge_from fuel maps operate its mc st = Ok st' /\
        In cur' (tuples maps) /\ Inv (fold_left step (rest its maps) abs) st' cur' mc'.
    Proof.
      induction fuel as [|fuel IH]; intros its mc st abs cur Hwf Hne Hh Hlen HI.
      - exfalso. pose proof (advance_spec maps its 0 cur Hwf Hne Hh) as A.
        destruct (advance maps its 0) as [[its' p]|].
        + destruct A as [_ [R _]]. rewrite R in Hlen. simpl in Hlen. lia.
        + rewrite A in Hlen. simpl in Hlen. lia.
      - simpl. rewrite Hh. pose proof (advance_spec maps its 0 cur Hwf Hne Hh) as A.
        pose proof (heads_in _ _ _ Hwf Hh) as Hin.
        pose proof (H_operate abs st cur mc Hin HI) as HO.
        destruct (operate st cur mc) as [st' mc'] eqn:Eop. simpl in HO.
        destruct (advance maps its 0) as [[its' p]|].
        + destruct A as [W [R [P [cur' [Hc Hf]]]]]. rewrite Nat.sub_0_r in Hf. rewrite R. simpl.
          apply (IH its' (Nat.min mc' p) st' (step abs cur) cur' W Hne Hc).
          * rewrite R in Hlen. simpl in Hlen. lia.
          * eapply H_weaken; eauto. eapply heads_in; eauto.
        + rewrite A. simpl. exists st', cur, mc'. auto.
    Qed.

    Lemma loop_edge_spec : forall rank0 dims0 st abs,
      maps <> [] -> (forall m, In m maps -> m <> []) ->
      (forall cur, In cur (tuples maps) -> Inv abs st cur 0) ->
      exists st' cur' mc', loop_edge maps rank0 dims0 operate st = Ok st' /\
        In cur' (tuples maps) /\ Inv (fold_left step (tuples maps) abs) st' cur' mc'.
    Proof.
      intros rank0 dims0 st abs Hn Hne HI. unfold loop_edge.
      destruct maps as [|m ms] eqn:Em; [congruence|]. rewrite <- Em in *.
      assert (E : existsb (fun m => match m with [] => true | _ => false end) maps = false).
      { destruct (existsb _ maps) eqn:E; auto. apply existsb_exists in E as [x [Hx Hx2]].
        destruct x; [|discriminate]. exfalso. now apply (Hne [] Hx). }
      rewrite E.
      destruct (heads_start maps Hne) as [cur [Hc Hin]].
      pose proof (rest_start maps Hne) as Er.
      replace (fold_left step (tuples maps) abs) with (fold_left step (rest maps maps) abs) by now rewrite Er.
      apply (loop_from_spec (1 + count_tuples maps) maps 0 st abs cur); auto.
      - now apply wf_start.
      - rewrite rest_start by auto. rewrite count_tuples_length. lia.
    Qed.
  End Run.

  Lemma loop_edge_rank0 : forall St (r d : St -> St) op st, loop_edge ([] : list (list entry)) r d op st = Ok (r st).
  Proof. reflexivity. Qed.
  Lemma loop_edge_dims0 : forall St (maps : list (list entry)) (r d : St -> St) op st, In [] maps ->
    loop_edge maps r d op st = Ok (d st).
  Proof.
    intros St maps r d op st H. unfold loop_edge. destruct maps as [|m ms]; [destruct H|].
    replace (existsb (fun m => match m with [] => true | _ => false end) (m :: ms)) with true; auto.
    symmetry. apply existsb_exists. exists []. auto.
  Qed.
  Lemma maps_cases : forall maps : list (list entry),
    maps = [] \/ In [] maps \/ (maps <> [] /\ forall m, In m maps -> m <> []).
  Proof.
    intros maps. destruct maps as [|m ms] eqn:E; [now left|right]. rewrite <- E.
    destruct (existsb (fun m : list entry => match m with [] => true | _ => false end) maps) eqn:Ex.
    - left. apply existsb_exists in Ex as [x [Hx Hx2]]. destruct x; [auto|discriminate].
    - right. split; [subst; discriminate|]. intros x Hx ->.
      assert (existsb (fun m : list entry => match m with [] => true | _ => false end) maps = true)
        by (apply existsb_exists; exists []; auto). congruence.
  Qed.
End Loop.

Section Accumulate.
  Context {A : Type}.
  Variable f : A -> A -> A.
  Lemma accumulate_length : forall l u, length (accumulate f u l) = length l.
  Proof. induction l; simpl; auto. Qed.
  Lemma accumulate_app : forall l1 l2 u,
    accumulate f u (l1 ++ l2) = accumulate f u l1 ++ accumulate f (last (accumulate f u l1) u) l2.
  Proof.
    induction l1 as [|a l1 IH]; intros l2 u; [reflexivity|].
    simpl accumulate. simpl. f_equal. rewrite IH. f_equal. f_equal.
    destruct (accumulate f (f a u) l1) as [|b l] eqn:E; [reflexivity|].
    clear. revert b. induction l as [|c l IHl]; intro b; [reflexivity|]. apply IHl.
  Qed.
  Lemma accumulate_firstn : forall l n u, firstn n (accumulate f u l) = accumulate f u (firstn n l).
  Proof. induction l; destruct n; simpl; intros; auto. f_equal. auto. Qed.

  Lemma accumulate_from_eq : forall u mc old new,
    firstn mc old = firstn mc (accumulate f u new) ->
    accumulate_from f u mc old new = accumulate f u new.
  Proof.
    intros u mc old new H. unfold accumulate_from. rewrite H, accumulate_firstn.
    rewrite <- accumulate_app. now rewrite firstn_skipn.
  Qed.
End Accumulate.

Lemma firstn_min_eq : forall A (l l' : list A) m k n,
  firstn m l = firstn m n -> firstn k n = firstn k l' -> firstn (Nat.min m k) l = firstn (Nat.min m k) l'.
Proof.
  intros A l l' m k n H1 H2.
  rewrite Nat.min_comm, <- firstn_firstn, H1, firstn_firstn, Nat.min_comm.
  rewrite <- firstn_firstn, H2, firstn_firstn. reflexivity.
Qed.

Definition prod (l : list nat) : nat := fold_right Nat.mul 1 l.
Lemma prod_app : forall a b, prod (a ++ b) = prod a * prod b.
Proof. unfold prod. induction a; simpl; intros; [lia|]. rewrite IHa. lia. Qed.
Lemma last_cons : forall A (l : list A) a d, last (a :: l) d = last l a.
Proof. induction l as [|b l IH]; intros a d; [reflexivity|]. change (last (a :: b :: l) d) with (last (b :: l) d).
  rewrite IH. symmetry. apply IH. Qed.
Lemma last_accumulate_mul : forall l u, last (accumulate Nat.mul u l) u = u * prod l.
Proof.
  unfold prod. induction l as [|a l IH]; intro u; [simpl; lia|]. simpl accumulate. rewrite last_cons, IH. simpl. lia.
Qed.
Lemma last_default : forall A (l : list A) d d', l <> [] -> last l d = last l d'.
Proof. intros A l d d' H. destruct l; [congruence|]. now rewrite !last_cons. Qed.
Lemma fold_left_mul_prod : forall l u, fold_left Nat.mul l u = u * prod l.
Proof. unfold prod. induction l; simpl; intros; [lia|]. rewrite IHl. lia. Qed.

Section BlockList.
  Context {S : Type} {SS : Sym S}.
  Notation entry := (S * nat)%type.

  Definition zero_sum (t : list entry) : bool := eqb (ssum (map fst t)) szero.
  Definition block_of (t : list entry) : list S * nat := (map fst t, prod (map snd t)).
  Definition block_list (maps : list (list entry)) : list (list S * nat) :=
    map block_of (filter zero_sum (tuples maps)).

  Definition bl_step (abs : list (list S * nat)) (cur : list entry) : list (list S * nat) :=
    if zero_sum cur then abs ++ [block_of cur] else abs.
  Lemma bl_fold : forall ts abs, fold_left bl_step ts abs = abs ++ map block_of (filter zero_sum ts).
  Proof.
    induction ts as [|t ts IH]; simpl; intro abs; [now rewrite app_nil_r|].
    rewrite IH. unfold bl_step. destruct (zero_sum t); simpl; auto. now rewrite <- app_assoc.
  Qed.

  Definition bl_inv (rank : nat) (abs : list (list S * nat)) (st : block_state) (cur : list entry) (mc : nat) : Prop :=
    let '(r, syms, sizes) := st in
    r = abs /\ firstn mc syms = firstn mc (map fst cur) /\
    firstn mc sizes = firstn mc (accumulate Nat.mul 1 (map snd cur)).

  Context {SL : SymLaws S}.

  Lemma zero_sum_true : forall t : list entry, zero_sum t = true <-> ssum (map fst t) = szero.
  Proof. intros. unfold zero_sum. apply eqb_true. Qed.

  Lemma initialize_block_symmetries_eq : forall maps : list (list entry),
    initialize_block_symmetries maps = Ok (block_list maps).
  Proof.
    intros maps. unfold initialize_block_symmetries. cbv zeta.
    destruct (maps_cases maps) as [->|[H|[H1 H2]]].
    - simpl. unfold block_list. simpl. unfold zero_sum. rewrite eqb_refl. reflexivity.
    - rewrite loop_edge_dims0 by auto. unfold block_list.
      apply tuples_nil_iff in H. rewrite H. reflexivity.
    - destruct (loop_edge_spec maps (block_operate (length maps)) bl_step (bl_inv (length maps))
        ) with (rank0 := fun st : block_state => let '(r, a, b) := st in (r ++ [([] : list S, 1)], a, b))
               (dims0 := fun st : @block_state S => st)
               (st := ([] : list (list S * nat), repeat (szero : S) (length maps), repeat 0 (length maps)))
               (abs := [] : list (list S * nat)) as [st' [cur' [mc' [E [_ I]]]]]; auto.
      + intros abs [[r syms] sizes] cur mc Hin [I1 [I2 I3]]. unfold block_operate, bl_step.
        fold (zero_sum cur). destruct (zero_sum cur); simpl.
        * rewrite I2, firstn_skipn. rewrite accumulate_from_eq by auto. repeat split; auto.
          rewrite I1. unfold block_of. do 2 f_equal. f_equal.
          rewrite (last_default _ _ 0 1), last_accumulate_mul; [lia|].
          intro E. apply (f_equal (@length nat)) in E. rewrite accumulate_length, map_length in E.
          apply tuples_length in Hin. destruct maps; [congruence|]. simpl in *. lia.
        * auto.
      + intros abs [[r syms] sizes] cur cur' mc k Hin Hin' [I1 [I2 I3]] Hk.
        unfold bl_inv. repeat split; auto.
        * eapply firstn_min_eq; [exact I2|]. rewrite !firstn_map. now rewrite Hk.
        * eapply firstn_min_eq; [exact I3|]. rewrite !accumulate_firstn, !firstn_map. now rewrite Hk.
      + intros cur _. simpl. auto.
      + match goal with |- bind ?X _ = _ => replace X with (Ok st') by (symmetry; exact E) end.
        simpl. destruct st' as [[r syms] sizes]. destruct I as [I _].
        simpl. rewrite I, bl_fold. reflexivity.
  Qed.
End BlockList.
