(** Lemmas for C31, C32: caches of the lazy graph are coherent. *)
From Coq Require Import List Bool Arith Lia.
From Verif Require Import Base.Outcome Model.Lazy Spec.Reactive.
Import ListNotations.

Lemma length_update : forall A i (f : A -> A) l, length (update i f l) = length l.
Proof. intros A i f l. revert i. induction l as [|a l IH]; intros [|i]; cbn; auto. Qed.
Lemma nth_update : forall A i (f : A -> A) l j, nth_error (update i f l) j = if Nat.eqb i j then option_map f (nth_error l j) else nth_error l j.
Proof.
  intros A i f l. revert i. induction l as [|a l IH]; intros [|i] [|j]; cbn [update nth_error Nat.eqb]; try reflexivity.
  - destruct (Nat.eqb i j); reflexivity.
  - apply IH.
Qed.

Section Meaning.
  Context {V : Type}.
  Lemma meanings_snoc : forall ds (d : def V), meanings (ds ++ [d]) = meanings ds ++ [value_in (meanings ds) d].
  Proof. intros ds d. unfold meanings. rewrite fold_left_app. reflexivity. Qed.
  Lemma meanings_length : forall ds : list (def V), length (meanings ds) = length ds.
  Proof. induction ds as [|d ds IH] using rev_ind; [reflexivity|]. rewrite meanings_snoc, !app_length, IH. reflexivity. Qed.
  Lemma meanings_app : forall ds es : list (def V), exists rest, meanings (ds ++ es) = meanings ds ++ rest.
  Proof.
    intros ds es. induction es as [|d es IH] using rev_ind; [exists []; rewrite !app_nil_r; reflexivity|].
    destruct IH as [r E]. rewrite app_assoc, meanings_snoc, E, <- app_assoc. eexists. reflexivity.
  Qed.
  Lemma meaning_app : forall (ds es : list (def V)) i, i < length ds -> meaning (ds ++ es) i = meaning ds i.
  Proof. intros ds es i H. unfold meaning. destruct (meanings_app ds es) as [r E]. rewrite E. apply app_nth1. rewrite meanings_length. exact H. Qed.
  Lemma value_in_args : forall (o1 o2 : list (option V)) d, (forall f args a, d = Computed f args -> In a args -> nth a o1 None = nth a o2 None) -> value_in o1 d = value_in o2 d.
  Proof. intros o1 o2 [v|f args] H; [reflexivity|]. cbn. f_equal. f_equal. apply map_ext_in. intros a Ha. eapply H; [reflexivity|exact Ha]. Qed.
  Lemma meaning_given : forall (ds : list (def V)) i v, nth_error ds i = Some (Given v) -> meaning ds i = v.
  Proof.
    intros ds i v H. assert (Hi : i < length ds) by (apply nth_error_Some; rewrite H; discriminate).
    destruct (nth_error_split _ _ H) as [l1 [l2 [E L]]]. subst ds.
    replace (l1 ++ Given v :: l2) with ((l1 ++ [Given v]) ++ l2) by (rewrite <- app_assoc; reflexivity).
    rewrite meaning_app by (rewrite app_length; cbn; lia). unfold meaning. rewrite meanings_snoc, app_nth2 by (rewrite meanings_length; lia).
    rewrite meanings_length, L, Nat.sub_diag. reflexivity.
  Qed.
  Lemma meaning_computed : forall (ds : list (def V)) i f args, nth_error ds i = Some (Computed f args) -> (forall a, In a args -> a < i) ->
    meaning ds i = option_map f (all_some (map (meaning ds) args)).
  Proof.
    intros ds i f args H Ha. assert (Hi : i < length ds) by (apply nth_error_Some; rewrite H; discriminate).
    destruct (nth_error_split _ _ H) as [l1 [l2 [E L]]]. subst ds.
    replace (l1 ++ Computed f args :: l2) with ((l1 ++ [Computed f args]) ++ l2) by (rewrite <- app_assoc; reflexivity).
    rewrite meaning_app by (rewrite app_length; cbn; lia). unfold meaning at 1. rewrite meanings_snoc, app_nth2 by (rewrite meanings_length; lia).
    rewrite meanings_length, L, Nat.sub_diag. cbn. f_equal. f_equal. apply map_ext_in. intros a Ia.
    rewrite <- app_assoc. rewrite meaning_app by (rewrite L; apply Ha; exact Ia). reflexivity.
  Qed.
End Meaning.

Section Facts.
  Context {V : Type}.
  Notation graph := (graph V). Notation cell := (cell V). Notation kind := (kind V).

  Definition val (g : graph) i : option (nat * V) := match cell_at g i with Some c => c_value c | None => None end.
  Definition kind_at (g : graph) i : option kind := option_map c_kind (cell_at g i).
  Definition kargs (k : option kind) : list nat := match k with Some (KNode _ a) => a | Some (KPath _ a) => a | _ => [] end.
  Definition args_of (g : graph) i : list nat := kargs (kind_at g i).
  Definition down_of (g : graph) i : list nat := match cell_at g i with Some c => c_down c | None => [] end.
  Definition held_n (g : graph) i : nat := match cell_at g i with Some c => c_held c | None => 0 end.

  Lemma cell_modify : forall i f (g : graph) j, cell_at (modify i f g) j = if Nat.eqb i j then option_map f (cell_at g j) else cell_at g j.
  Proof. intros. apply nth_update. Qed.
  Lemma length_modify : forall i f (g : graph), length (cells (modify i f g)) = length (cells g).
  Proof. intros. apply length_update. Qed.
  Lemma alive_lt : forall (g : graph) i, alive g i = true -> i < length (cells g).
  Proof. intros g i H. apply nth_error_Some. unfold alive, cell_at in H. destruct (nth_error (cells g) i); [discriminate|discriminate H]. Qed.
  Lemma cell_lt : forall (g : graph) i, i < length (cells g) -> exists c, cell_at g i = Some c.
  Proof. intros g i H. unfold cell_at. destruct (nth_error (cells g) i) eqn:E; [eauto|]. apply nth_error_None in E. lia. Qed.
  Lemma kargs_cell : forall g i (c : cell), cell_at g i = Some c -> args_of g i = cell_args c.
  Proof. intros g i c H. unfold args_of, kind_at, cell_args. rewrite H. cbn. destruct (c_kind c); reflexivity. Qed.

  Record shape (g g' : graph) : Prop := {
    sh_len : length (cells g') = length (cells g);
    sh_kind : forall j, kind_at g' j = kind_at g j;
    sh_alive : forall j, alive g' j = alive g j;
    sh_held : forall j, held_n g' j = held_n g j;
    sh_down1 : forall j d, In d (down_of g' j) -> In d (down_of g j);
    sh_down2 : forall j d, In d (down_of g j) -> alive g d = true -> In d (down_of g' j);
    sh_nodes : nodes g' = nodes g }.
  Lemma shape_refl : forall g, shape g g.
  Proof. intros g. constructor; auto. Qed.
  Lemma shape_trans : forall a b c, shape a b -> shape b c -> shape a c.
  Proof.
    intros a b c [] []. constructor; intros; try congruence; auto.
    apply sh_down6; [apply sh_down4; assumption|]. rewrite sh_alive0. assumption.
  Qed.

  (** changing only values, or pruning dead followers *)
  Lemma shape_value : forall i v g, shape g (modify i (with_value v) g).
  Proof.
    intros i v g. constructor; [apply length_modify| | | | | |reflexivity]; intros; unfold kind_at, alive, held_n, down_of in *; rewrite cell_modify in *;
      destruct (Nat.eqb i j); auto; destruct (cell_at g j) as [c|]; cbn in *; auto.
  Qed.
  Lemma val_value : forall i v g j, i < length (cells g) -> val (modify i (with_value v) g) j = if Nat.eqb i j then v else val g j.
  Proof.
    intros i v g j H. unfold val. rewrite cell_modify. destruct (Nat.eqb i j) eqn:E; [|reflexivity]. apply Nat.eqb_eq in E. subst.
    destruct (cell_lt _ _ H) as [c Ec]. rewrite Ec. reflexivity.
  Qed.
  Lemma shape_prune : forall i g g1, shape g g1 -> shape g (modify i (with_down (filter (alive g1) (down_of g i))) g1).
  Proof.
    intros i g g1 H. assert (Ha := sh_alive _ _ H).
    constructor; [rewrite length_modify; apply (sh_len _ _ H)| | | | | |apply (sh_nodes _ _ H)]; intros j.
    - rewrite <- (sh_kind _ _ H j). unfold kind_at. rewrite cell_modify. destruct (Nat.eqb i j); [|reflexivity]. destruct (cell_at g1 j); reflexivity.
    - rewrite <- (sh_alive _ _ H j). unfold alive. rewrite cell_modify. destruct (Nat.eqb i j); [|reflexivity]. destruct (cell_at g1 j); reflexivity.
    - rewrite <- (sh_held _ _ H j). unfold held_n. rewrite cell_modify. destruct (Nat.eqb i j); [|reflexivity]. destruct (cell_at g1 j); reflexivity.
    - intros d. generalize (sh_down1 _ _ H j d). unfold down_of at 3 4. rewrite cell_modify. destruct (Nat.eqb i j) eqn:E; [|unfold down_of; auto].
      apply Nat.eqb_eq in E. subst j. intros _. destruct (cell_at g1 i); cbn; [|intros []]. intros Hd. apply filter_In in Hd. apply Hd.
    - intros d. generalize (sh_down2 _ _ H j d). unfold down_of at 3 4. rewrite cell_modify. destruct (Nat.eqb i j) eqn:E; [|unfold down_of; auto].
      apply Nat.eqb_eq in E. subst j. intros Q Hd Hl. specialize (Q Hd Hl). unfold down_of in Q. destruct (cell_at g1 i); cbn; [|exact Q].
      apply filter_In. split; [exact Hd|rewrite Ha; exact Hl].
  Qed.
  Lemma val_prune : forall i d g j, val (modify i (with_down d) g) j = val g j.
  Proof. intros. unfold val. rewrite cell_modify. destruct (Nat.eqb i j); [|reflexivity]. destruct (cell_at g j); reflexivity. Qed.

  Record links (g : graph) : Prop := {
    l_args : forall j a, In a (args_of g j) -> a < j;
    l_alive : forall j a, alive g j = true -> In a (args_of g j) -> alive g a = true;
    l_down : forall j a, alive g j = true -> In a (args_of g j) -> In j (down_of g a);
    l_back : forall j a, In j (down_of g a) -> In a (args_of g j) }.
  Lemma links_shape : forall g g', shape g g' -> links g -> links g'.
  Proof.
    intros g g' [] []. assert (E : forall j, args_of g' j = args_of g j) by (intros j; unfold args_of; rewrite sh_kind0; reflexivity).
    constructor; intros j a; rewrite ?E, ?sh_alive0; eauto.
  Qed.

  Inductive reaches (g : graph) (i : nat) : nat -> Prop :=
  | r_refl : reaches g i i
  | r_step : forall k j, reaches g i k -> alive g j = true -> In k (args_of g j) -> reaches g i j.
  Lemma reaches_shape : forall g g' i j, shape g g' -> reaches g i j -> reaches g' i j.
  Proof.
    intros g g' i j H R. induction R as [|k j R IH Ha Hk]; [constructor|]. apply r_step with k; [exact IH| |].
    - rewrite (sh_alive _ _ H). exact Ha.
    - unfold args_of. rewrite (sh_kind _ _ H). exact Hk.
  Qed.
  Lemma shape_sym_reaches : forall g g' i j, shape g g' -> reaches g' i j -> reaches g i j.
  Proof.
    intros g g' i j H R. induction R as [|k j R IH Ha Hk]; [constructor|]. apply r_step with k; [exact IH| |].
    - rewrite <- (sh_alive _ _ H). exact Ha.
    - unfold args_of in *. rewrite <- (sh_kind _ _ H). exact Hk.
  Qed.
  Lemma reaches_trans : forall g a b c, reaches g a b -> reaches g b c -> reaches g a c.
  Proof. intros g a b c H R. induction R; [exact H|]. apply r_step with k; assumption. Qed.
  Lemma reaches_head : forall g i j, links g -> reaches g i j -> j = i \/ exists d, In d (down_of g i) /\ alive g d = true /\ reaches g d j.
  Proof.
    intros g i j L R. induction R as [|k j R IH Ha Hk]; [left; reflexivity|]. right. destruct IH as [->|[d [Hd [Hl Hr]]]].
    - exists j. split; [apply (l_down _ L); assumption|]. split; [exact Ha|constructor].
    - exists d. split; [exact Hd|]. split; [exact Hl|]. apply r_step with k; assumption.
  Qed.
  Lemma reaches_down : forall g i d j, links g -> In d (down_of g i) -> alive g d = true -> reaches g d j -> reaches g i j.
  Proof.
    intros g i d j L Hd Ha R. apply reaches_trans with d; [|exact R]. apply r_step with i; [constructor|exact Ha|]. apply (l_back _ L). exact Hd.
  Qed.
  Lemma reaches_le : forall g i j, links g -> reaches g i j -> i <= j.
  Proof. intros g i j L R. induction R as [|k j R IH Ha Hk]; [lia|]. apply (l_args _ L) in Hk. lia. Qed.

  Lemma unset_spec : forall fuel i g, links g -> i < length (cells g) -> length (cells g) - i <= fuel ->
    exists g', unset fuel i g = Ok g' /\ shape g g' /\ clock g' = clock g /\ (forall j, reaches g i j -> val g' j = None) /\
      (forall j, val g' j = val g j \/ reaches g i j).
  Proof.
    induction fuel as [|fuel IH]; intros i g L Hi Hf; [lia|]. cbn [unset]. destruct (cell_lt _ _ Hi) as [c Ec]. rewrite Ec. cbn [get_or_ub bind].
    assert (Ed : c_down c = down_of g i) by (unfold down_of; rewrite Ec; reflexivity). rewrite Ed.
    assert (F : forall ds g0, links g0 -> (forall d, In d ds -> i < d) -> length (cells g0) = length (cells g) ->
      exists g', foldM (fun g d => if alive g d then unset fuel d g else Ok g) ds g0 = Ok g' /\ shape g0 g' /\ clock g' = clock g0 /\
        (forall j, (exists d, In d ds /\ alive g0 d = true /\ reaches g0 d j) -> val g' j = None) /\
        (forall j, val g' j = val g0 j \/ exists d, In d ds /\ alive g0 d = true /\ reaches g0 d j)).
    { induction ds as [|d ds IHd]; intros g0 L0 Hd Hl.
      - exists g0. split; [reflexivity|]. split; [apply shape_refl|]. split; [reflexivity|]. split; [intros j [d [[] _]]|intros j; left; reflexivity].
      - cbn [foldM]. destruct (alive g0 d) eqn:Ea.
        + assert (id : i < d) by (apply Hd; left; reflexivity). assert (Hd' := alive_lt _ _ Ea).
          destruct (IH d g0 L0 Hd' ltac:(lia)) as [g1 [E1 [S1 [C1 [N1 U1]]]]]. rewrite E1. cbn [bind].
          destruct (IHd g1 (links_shape _ _ S1 L0) ltac:(intros; apply Hd; right; assumption) ltac:(rewrite (sh_len _ _ S1); exact Hl)) as [g2 [E2 [S2 [C2 [N2 U2]]]]].
          exists g2. split; [exact E2|]. split; [apply shape_trans with g1; assumption|]. split; [congruence|]. split.
          * intros j [d' [[<-|Hd''] [Ha' Hr]]].
            -- destruct (U2 j) as [H|H]; [rewrite H; apply N1; exact Hr|apply N2; exact H].
            -- apply N2. exists d'. split; [exact Hd''|]. rewrite (sh_alive _ _ S1). split; [exact Ha'|]. apply reaches_shape with g0; assumption.
          * intros j. destruct (U2 j) as [H|[d' [H1 [H2 H3]]]].
            -- rewrite H. destruct (U1 j) as [H'|H']; [left; exact H'|right; exists d; split; [left; reflexivity|]; split; assumption].
            -- right. exists d'. split; [right; exact H1|]. rewrite <- (sh_alive _ _ S1). split; [exact H2|]. apply shape_sym_reaches with g1; assumption.
        + cbn [bind]. destruct (IHd g0 L0 ltac:(intros; apply Hd; right; assumption) Hl) as [g2 [E2 [S2 [C2 [N2 U2]]]]].
          exists g2. split; [exact E2|]. split; [exact S2|]. split; [exact C2|]. split.
          * intros j [d' [[<-|Hd''] [Ha' Hr]]]; [congruence|]. apply N2. exists d'. auto.
          * intros j. destruct (U2 j) as [H|[d' [H1 H2]]]; [left; exact H|right; exists d'; split; [right; exact H1|exact H2]]. }
    assert (Sr := shape_value i None g). fold (release i g) in Sr.
    destruct (F (down_of g i) (release i g)) as [g1 [E1 [S1 [C1 [N1 U1]]]]].
    { exact (links_shape _ _ Sr L). }
    { intros d Hd. apply (l_args _ L d). apply (l_back _ L). exact Hd. }
    { apply length_modify. }
    rewrite E1. cbn [bind]. assert (S01 := shape_trans _ _ _ Sr S1).
    eexists. split; [reflexivity|]. split; [apply shape_prune; exact S01|]. split; [exact C1|].
    assert (Hr : forall d j, reaches (release i g) d j <-> reaches g d j) by (intros; split; [apply shape_sym_reaches|apply reaches_shape]; exact Sr).
    assert (Vr : forall j, val (release i g) j = if Nat.eqb i j then None else val g j) by (intros j; apply val_value; exact Hi).
    split.
    - intros j R. rewrite val_prune. apply reaches_head in R; [|exact L]. destruct R as [->|[d [H1 [H2 H3]]]].
      + destruct (U1 i) as [H|H]; [rewrite H, Vr, Nat.eqb_refl; reflexivity|apply N1; exact H].
      + apply N1. exists d. split; [exact H1|]. rewrite (sh_alive _ _ Sr). split; [exact H2|apply Hr; exact H3].
    - intros j. rewrite val_prune. destruct (U1 j) as [H|[d [H1 [H2 H3]]]].
      + rewrite H, Vr. destruct (Nat.eqb i j) eqn:E; [right; apply Nat.eqb_eq in E; subst; constructor|left; reflexivity].
      + right. apply reaches_down with d; [exact L|exact H1|rewrite <- (sh_alive _ _ Sr); exact H2|apply Hr; exact H3].
  Qed.


  (** ** Values *)
  Inductive avail (K : nat -> option kind) (vl : nat -> option (nat * V)) : nat -> Prop :=
  | av_root : forall i, K i = Some KRoot -> vl i <> None -> avail K vl i
  | av_node : forall i f a, K i = Some (KNode f a) -> vl i <> None -> avail K vl i
  | av_path : forall i f args, K i = Some (KPath f args) -> (forall a, In a args -> avail K vl a) -> avail K vl i.

  Record sem_on (n : nat) (al : nat -> bool) (K : nat -> option kind) (vl : nat -> option (nat * V)) (ds : list (def V)) (tr : list bool) : Prop := {
    s_len : length ds = n;
    s_len' : length tr = n;
    s_root : forall i, i < n -> al i = true -> K i = Some KRoot -> nth_error ds i = Some (Given (option_map snd (vl i)));
    s_node : forall i f a, i < n -> al i = true -> K i = Some (KNode f a) -> nth_error ds i = Some (Computed f a);
    s_path : forall i f a, i < n -> al i = true -> K i = Some (KPath f a) -> nth_error ds i = Some (Computed f a);
    s_empty : forall i f a, i < n -> al i = true -> K i = Some (KPath f a) -> vl i = None;
    s_some : forall i, i < n -> K i <> None;
    s_up : forall i a, i < n -> al i = true -> nth i tr false = true -> In a (kargs (K i)) -> nth a tr false = true;
    s_val : forall i f args s v, i < n -> al i = true -> nth i tr false = true -> K i = Some (KNode f args) -> vl i = Some (s, v) ->
      meaning ds i = Some v /\ forall a, In a args -> avail K vl a }.

  Definition sem (g : graph) := sem_on (length (cells g)) (alive g) (kind_at g) (val g).

  (** availability carries over to a state in which the same promised cells are filled *)
  Lemma avail_mono : forall K vl vl' (P : nat -> Prop) a, (forall j b, P j -> In b (kargs (K j)) -> P b) ->
    (forall j, P j -> vl j <> None -> vl' j <> None) -> P a -> avail K vl a -> avail K vl' a.
  Proof.
    intros K vl vl' P a Hp Hv Pa A. revert Pa. induction A as [i E H|i f b E H|i f args E H IH]; intros Pa.
    - apply av_root; auto.
    - eapply av_node; eauto.
    - eapply av_path; [exact E|]. intros b Hb. apply IH; [exact Hb|]. apply (Hp i); [exact Pa|]. rewrite E. exact Hb.
  Qed.
  Lemma avail_kind : forall K K' vl a, (forall j, K j <> None -> K' j = K j) -> avail K vl a -> avail K' vl a.
  Proof.
    intros K K' vl a H A. induction A as [i E Hv|i f b E Hv|i f args E Hv IH].
    - apply av_root; [rewrite H; [exact E|congruence]|exact Hv].
    - apply av_node with f b; [rewrite H; [exact E|congruence]|exact Hv].
    - apply av_path with f args; [rewrite H; [exact E|congruence]|exact IH].
  Qed.
  Lemma sem_shape : forall g g' ds tr, shape g g' -> (forall j, val g' j = val g j) -> sem g ds tr -> sem g' ds tr.
  Proof.
    intros g g' ds tr Sh Hv S. unfold sem. assert (Q : forall a, avail (kind_at g) (val g) a -> avail (kind_at g') (val g') a).
    { intros a A. apply avail_kind with (kind_at g); [intros; apply (sh_kind _ _ Sh)|]. apply avail_mono with (val g) (fun _ => True); auto. intros j _ H. rewrite Hv. exact H. }
    destruct S. rewrite (sh_len _ _ Sh). constructor; auto; intros i; rewrite ?(sh_kind _ _ Sh), ?(sh_alive _ _ Sh), ?Hv; eauto.
    intros f args s v H1 H2 H3 H4 H5. destruct (s_val0 i f args s v H1 H2 H3 H4 H5) as [M A]. split; [exact M|]. intros a Ha. apply Q, A, Ha.
  Qed.

  (** a promised cell with a value has all it depends on *)
  Lemma avail_args : forall g ds tr j, links g -> sem g ds tr -> alive g j = true -> nth j tr false = true -> avail (kind_at g) (val g) j ->
    forall a, In a (args_of g j) -> avail (kind_at g) (val g) a.
  Proof.
    intros g ds tr j L S Ha Ht A a Hin. assert (Hj := alive_lt _ _ Ha). unfold args_of in Hin. destruct A as [i E H|i f b E H|i f args E H].
    - rewrite E in Hin. destruct Hin.
    - destruct (val g i) as [[s v]|] eqn:Ev; [|congruence]. rewrite E in Hin. apply (s_val _ _ _ _ _ _ S i f b s v Hj Ha Ht E Ev). exact Hin.
    - rewrite E in Hin. apply H. exact Hin.
  Qed.
  Lemma avail_upstream : forall g ds tr i j, links g -> sem g ds tr -> reaches g i j -> alive g j = true -> nth j tr false = true ->
    avail (kind_at g) (val g) j -> avail (kind_at g) (val g) i.
  Proof.
    intros g ds tr i j L S R. induction R as [|k j R IH Ha Hk]; intros Hj Ht A; [exact A|].
    apply IH.
    - apply (l_alive _ L j); assumption.
    - apply (s_up _ _ _ _ _ _ S j); auto. apply alive_lt. exact Hj.
    - apply (avail_args g ds tr j L S Hj Ht A). exact Hk.
  Qed.

  Section Get.
    Variables (ds : list (def V)) (tr : list bool).
    Definition keeps (g g' : graph) : Prop := forall j x, alive g j = true -> nth j tr false = true -> val g j = Some x -> val g' j = Some x.
    Definition good (g : graph) (a : answer V) : Prop :=
      match a with Temporary _ => True | Reference k s w => alive g k = true /\ nth k tr false = true /\ val g k = Some (s, w) end.
    Lemma keeps_trans : forall a b c, shape a b -> keeps a b -> keeps b c -> keeps a c.
    Proof. intros a b c Sh H1 H2 j x Ha Ht Hv. apply H2; auto. rewrite (sh_alive _ _ Sh). exact Ha. Qed.
    Lemma good_keeps : forall g g' a, shape g g' -> keeps g g' -> good g a -> good g' a.
    Proof. intros g g' [v|k s w] Sh K; [auto|]. intros [H1 [H2 H3]]. split; [rewrite (sh_alive _ _ Sh); exact H1|]. split; [exact H2|]. apply K; assumption. Qed.
    Lemma good_valid : forall g a, good g a -> valid g a = true.
    Proof. intros g [v|k s w]; [reflexivity|]. intros [_ [_ H]]. cbn. unfold val in H. destruct (cell_at g k) as [c|]; [|discriminate]. rewrite H. apply Nat.eqb_refl. Qed.
    Lemma avail_keeps : forall g g' a, links g -> sem g ds tr -> shape g g' -> keeps g g' -> alive g a = true -> nth a tr false = true ->
      avail (kind_at g) (val g) a -> avail (kind_at g') (val g') a.
    Proof.
      intros g g' a L S Sh K Ha Ht A. apply avail_kind with (kind_at g); [intros; apply (sh_kind _ _ Sh)|].
      apply avail_mono with (val g) (fun j => alive g j = true /\ nth j tr false = true); auto.
      - intros j b [H1 H2] Hb. split; [apply (l_alive _ L j); assumption|]. apply (s_up _ _ _ _ _ _ S j); auto. apply alive_lt. exact H1.
      - intros j [H1 H2] Hv. destruct (val g j) as [x|] eqn:E; [|congruence]. rewrite (K j x); auto; discriminate.
    Qed.

    (** filling an empty promised node with its value *)
    Lemma set_spec : forall i f args v g, links g -> sem g ds tr -> alive g i = true -> nth i tr false = true -> kind_at g i = Some (KNode f args) ->
      val g i = None -> meaning ds i = Some v -> (forall a, In a args -> avail (kind_at g) (val g) a) ->
      exists g', set i v g = Ok g' /\ shape g g' /\ sem g' ds tr /\ keeps g g' /\ val g' i = Some (clock g, v) /\ (forall j, j <> i -> val g' j = val g j \/ val g' j = None).
    Proof.
      intros i f args v g L S Ha Ht Ek Ev Em Aa. unfold set. assert (Hi := alive_lt _ _ Ha).
      destruct (unset_spec (length (cells g)) i g L Hi ltac:(lia)) as [g1 [E1 [S1 [C1 [N1 U1]]]]]. rewrite E1. cbn [bind]. eexists. split; [reflexivity|].
      set (g2 := store i v g1).
      assert (S2 : shape g1 g2) by (destruct (shape_value i (Some (clock g1, v)) g1); constructor; assumption).
      assert (V2 : forall j, val g2 j = if Nat.eqb i j then Some (clock g1, v) else val g1 j).
      { intros j. change (val g2 j) with (val (modify i (with_value (Some (clock g1, v))) g1) j). apply val_value. rewrite (sh_len _ _ S1). exact Hi. }
      assert (S12 := shape_trans _ _ _ S1 S2).
      assert (K1 : keeps g g1).
      { intros j x Hj Htj Hv. destruct (U1 j) as [H|R]; [congruence|]. exfalso.
        assert (A : avail (kind_at g) (val g) i).
        { apply (avail_upstream g ds tr i j L S R Hj Htj). assert (Hlj := alive_lt _ _ Hj).
          assert (Q := s_some _ _ _ _ _ _ S j Hlj). destruct (kind_at g j) as [[|f' a'|f' a']|] eqn:E; [| | |congruence].
          - apply av_root; congruence.
          - eapply av_node; [exact E|congruence].
          - rewrite (s_empty _ _ _ _ _ _ S j f' a' Hlj Hj E) in Hv. discriminate. }
        inversion A; congruence. }
      assert (K2 : keeps g g2).
      { intros j x Hj Htj Hv. rewrite V2. destruct (Nat.eqb i j) eqn:E; [apply Nat.eqb_eq in E; congruence|]. apply K1; assumption. }
      split; [exact S12|]. split; [|split; [exact K2|split]].
      2:{ rewrite V2, Nat.eqb_refl, C1. reflexivity. }
      2:{ intros j Hj. rewrite V2. replace (Nat.eqb i j) with false by (symmetry; apply Nat.eqb_neq; congruence).
          destruct (U1 j) as [H|H]; [left; exact H|right; apply N1; exact H]. }
      assert (Av : forall a, alive g a = true -> nth a tr false = true -> avail (kind_at g) (val g) a -> avail (kind_at g2) (val g2) a).
      { intros a. apply avail_keeps; assumption. }
      unfold sem. rewrite (sh_len _ _ S12). pose proof S as S'. destruct S'. constructor; auto; intros j; rewrite ?(sh_kind _ _ S12), ?(sh_alive _ _ S12).
      - intros Hj Haj Ekj. rewrite (s_root0 j Hj Haj Ekj). f_equal. f_equal. f_equal. rewrite V2. destruct (Nat.eqb i j) eqn:E; [apply Nat.eqb_eq in E; congruence|].
        destruct (U1 j) as [H|R]; [congruence|]. apply Nat.eqb_neq in E. destruct R as [|k j R Hl Hk]; [congruence|]. unfold args_of in Hk. rewrite Ekj in Hk. destruct Hk.
      - eauto.
      - eauto.
      - intros f' a' Hj Haj Ekj. rewrite V2. destruct (Nat.eqb i j) eqn:E; [apply Nat.eqb_eq in E; congruence|].
        destruct (U1 j) as [H|R]; [rewrite H; eauto|apply N1; exact R].
      - eauto.
      - intros a. eauto.
      - intros f' args' s' v' Hj Haj Htj Ekj. rewrite V2. destruct (Nat.eqb i j) eqn:E.
        + apply Nat.eqb_eq in E. subst j. intros H. injection H as _ <-. rewrite Ek in Ekj. injection Ekj as <- <-. split; [exact Em|].
          intros a Hin. apply Av; [apply (l_alive _ L i); [exact Ha|unfold args_of; rewrite Ek; exact Hin]|apply (s_up0 i); auto; rewrite Ek; exact Hin|apply Aa; exact Hin].
        + intros Hv. destruct (U1 j) as [H|R]; [|rewrite N1 in Hv by exact R; discriminate]. rewrite H in Hv.
          destruct (s_val0 j f' args' s' v' Hj Haj Htj Ekj Hv) as [M A]. split; [exact M|]. intros a Hin.
          apply Av; [apply (l_alive _ L j); [exact Haj|unfold args_of; rewrite Ekj; exact Hin]|apply (s_up0 j); auto; rewrite Ekj; exact Hin|apply A; exact Hin].
    Qed.

    Lemma get_spec : forall fuel i g v, i < fuel -> links g -> sem g ds tr -> alive g i = true -> nth i tr false = true -> meaning ds i = Some v ->
      exists a g', get fuel i g = Ok (a, g') /\ answer_value a = v /\ good g' a /\ sem g' ds tr /\ shape g g' /\ keeps g g' /\
        (forall j, i < j -> val g j = None -> val g' j = None) /\ avail (kind_at g') (val g') i.
    Proof.
      induction fuel as [|fuel IH]; intros i g v Hf L S Ha Ht Em; [lia|]. cbn [get]. assert (Hi := alive_lt _ _ Ha).
      destruct (cell_lt _ _ Hi) as [c Ec]. rewrite Ec. cbn [get_or_ub bind].
      assert (Ek : kind_at g i = Some (c_kind c)) by (unfold kind_at; rewrite Ec; reflexivity).
      assert (Ev : val g i = c_value c) by (unfold val; rewrite Ec; reflexivity).
      assert (Rf : forall s w, val g i = Some (s, w) -> w = v -> (c_kind c = KRoot \/ exists f a, c_kind c = KNode f a) ->
        exists a g', Ok (Reference i s w, g) = Ok (a, g') /\ answer_value a = v /\ good g' a /\ sem g' ds tr /\ shape g g' /\ keeps g g' /\
          (forall j, i < j -> val g j = None -> val g' j = None) /\ avail (kind_at g') (val g') i).
      { intros s w Hv -> Hk. exists (Reference i s v), g. split; [reflexivity|]. split; [reflexivity|]. split; [cbn; auto|]. split; [exact S|]. split; [apply shape_refl|].
        split; [intros j x _ _ H; exact H|]. split; [auto|]. destruct Hk as [Hk|[f [a Hk]]]; rewrite Hk in Ek.
        - apply av_root; congruence.
        - eapply av_node; [exact Ek|congruence]. }
      set (call := fun (f : list V -> V) (args : list nat) =>
          bind (foldM (fun st a => bind (get fuel a (snd st)) (fun r => Ok (fst st ++ [fst r], snd r))) args ([], g)) (fun st =>
          if forallb (valid (snd st)) (fst st) then Ok (f (map answer_value (fst st)), snd st) else UB)).
      assert (Call : forall f args, kargs (kind_at g i) = args -> nth_error ds i = Some (Computed f args) ->
        exists g', call f args = Ok (v, g') /\ links g' /\ sem g' ds tr /\ shape g g' /\ keeps g g' /\ (forall j, i <= j -> val g j = None -> val g' j = None) /\
          forall a, In a args -> avail (kind_at g') (val g') a).
      { intros f args Ea Ed. assert (Hlt : forall a, In a args -> a < i) by (intros a H; apply (l_args _ L); unfold args_of; rewrite Ea; exact H).
        rewrite (meaning_computed ds i f args Ed Hlt) in Em. destruct (all_some (map (meaning ds) args)) as [vs|] eqn:Es; [|discriminate]. cbn in Em. injection Em as <-.
        assert (Q : forall l acc g0 ws, (forall a, In a l -> In a args) -> all_some (map (meaning ds) l) = Some ws -> links g0 -> sem g0 ds tr -> shape g g0 -> Forall (good g0) acc ->
          exists acc' g', foldM (fun st a => bind (get fuel a (snd st)) (fun r => Ok (fst st ++ [fst r], snd r))) l (acc, g0) = Ok (acc ++ acc', g') /\ map answer_value acc' = ws /\
            Forall (good g') (acc ++ acc') /\ links g' /\ sem g' ds tr /\ shape g0 g' /\ keeps g0 g' /\ (forall j, i <= j -> val g0 j = None -> val g' j = None) /\
            forall a, In a l -> avail (kind_at g') (val g') a).
        { induction l as [|a l IHl]; intros acc g0 ws Hin Hs L0 S0 Sh G; cbn [map all_some] in Hs.
          - injection Hs as <-. exists [], g0. rewrite app_nil_r. split; [reflexivity|]. split; [reflexivity|]. split; [exact G|]. split; [exact L0|]. split; [exact S0|].
            split; [apply shape_refl|]. split; [intros j x _ _ H; exact H|]. split; [auto|intros a []].
          - destruct (meaning ds a) as [va|] eqn:Ema; [|discriminate]. destruct (all_some (map (meaning ds) l)) as [vl|] eqn:El; [|discriminate]. injection Hs as <-.
            assert (Ia : In a args) by (apply Hin; left; reflexivity).
            assert (Ala : alive g a = true) by (apply (l_alive _ L i); [exact Ha|unfold args_of; rewrite Ea; exact Ia]).
            assert (Tra : nth a tr false = true) by (apply (s_up _ _ _ _ _ _ S i); auto; rewrite Ea; exact Ia).
            assert (Ala0 : alive g0 a = true) by (rewrite (sh_alive _ _ Sh); exact Ala).
            destruct (IH a g0 va) as [r [g1 [E1 [Va [G1 [S1 [Sh1 [K1 [N1 A1]]]]]]]]]; auto.
            { specialize (Hlt a Ia). lia. }
            cbn [foldM snd fst]. rewrite E1. cbn [bind fst snd]. assert (L1 := links_shape _ _ Sh1 L0).
            destruct (IHl (acc ++ [r]) g1 vl) as [acc' [g2 [E2 [V2 [G2 [L2 [S2 [Sh2 [K2 [N2 A2]]]]]]]]]]; auto.
            { intros b Hb. apply Hin. right. exact Hb. }
            { apply shape_trans with g0; assumption. }
            { apply Forall_app. split; [|constructor; [exact G1|constructor]]. eapply Forall_impl; [|exact G]. intros b. apply good_keeps; assumption. }
            exists (r :: acc'), g2. rewrite <- app_assoc in E2, G2. split; [exact E2|]. split; [cbn; rewrite Va, V2; reflexivity|]. split; [exact G2|]. split; [exact L2|]. split; [exact S2|].
            split; [apply shape_trans with g1; assumption|]. split; [apply keeps_trans with g1; assumption|]. split.
            { intros j Hj Hv. apply N2; [exact Hj|]. apply N1; [specialize (Hlt a Ia); lia|exact Hv]. }
            { intros b [<-|Hb]; [|apply A2; exact Hb]. apply (avail_keeps g1 g2 a L1 S1 Sh2 K2); [rewrite (sh_alive _ _ Sh1); exact Ala0|exact Tra|exact A1]. } }
        destruct (Q args [] g vs) as [acc [g1 [E1 [V1 [G1 [L1 [S1 [Sh1 [K1 [N1 A1]]]]]]]]]]; auto using shape_refl.
        exists g1. split; [|split; [exact L1|split; [exact S1|split; [exact Sh1|split; [exact K1|split; [exact N1|exact A1]]]]]].
        unfold call. rewrite E1. cbn [bind fst snd app]. cbn [app] in G1. replace (forallb (valid g1) acc) with true.
        - rewrite V1. reflexivity.
        - symmetry. apply forallb_forall. rewrite Forall_forall in G1. intros a H. apply good_valid, G1, H. }
      unfold call in Call. clear call.
      destruct (c_kind c) as [|f args|f args] eqn:Eck.
      - assert (Em' := meaning_given _ _ _ (s_root _ _ _ _ _ _ S i Hi Ha Ek)). rewrite Em in Em'. rewrite Ev in Em'. destruct (c_value c) as [[s w]|] eqn:Ecv; [|discriminate].
        cbn in Em'. injection Em' as ->. apply Rf; [exact Ev|reflexivity|left; reflexivity].
      - destruct (c_value c) as [[s w]|] eqn:Ecv.
        + assert (w = v). { destruct (s_val _ _ _ _ _ _ S i f args s w Hi Ha Ht Ek Ev) as [M _]. congruence. }
          apply Rf; [exact Ev|assumption|right; eauto].
        + destruct (Call f args) as [g1 [E1 [L1 [S1 [Sh1 [K1 [N1 A1]]]]]]]; [rewrite Ek; reflexivity|apply (s_node _ _ _ _ _ _ S); assumption|].
          rewrite E1. cbn [bind fst snd].
          destruct (set_spec i f args v g1 L1 S1) as [g2 [E2 [Sh2 [S2 [K2 [V2 U2]]]]]]; auto.
          { rewrite (sh_alive _ _ Sh1). exact Ha. }
          { rewrite (sh_kind _ _ Sh1). exact Ek. }
          rewrite E2. cbn [bind]. assert (V2' := V2). unfold val in V2'. destruct (cell_at g2 i) as [c2|] eqn:Ec2; [|discriminate]. cbn [get_or_ub bind]. rewrite V2'.
          assert (Sh12 := shape_trans _ _ _ Sh1 Sh2).
          exists (Reference i (clock g1) v), g2. split; [reflexivity|]. split; [reflexivity|]. split.
          { cbn. split; [rewrite (sh_alive _ _ Sh12); exact Ha|]. split; [exact Ht|exact V2]. }
          split; [exact S2|]. split; [exact Sh12|]. split; [apply keeps_trans with g1; assumption|]. split.
          { intros j Hj Hv. assert (Hn : val g1 j = None) by (apply N1; [lia|exact Hv]). destruct (U2 j) as [H|H]; [lia|rewrite H; exact Hn|exact H]. }
          { eapply av_node; [rewrite (sh_kind _ _ Sh12); exact Ek|congruence]. }
      - destruct (Call f args) as [g1 [E1 [L1 [S1 [Sh1 [K1 [N1 A1]]]]]]]; [rewrite Ek; reflexivity|apply (s_path _ _ _ _ _ _ S); assumption|].
        rewrite E1. cbn [bind fst snd]. exists (Temporary v), g1. split; [reflexivity|]. split; [reflexivity|]. split; [exact I|]. split; [exact S1|]. split; [exact Sh1|]. split; [exact K1|].
        split; [intros j Hj; apply N1; lia|]. eapply av_path; [rewrite (sh_kind _ _ Sh1); exact Ek|exact A1].
    Qed.
  End Get.

  (** ** Setting and unsetting roots *)
  Lemma meaning_update : forall g ds tr i d j, links g -> sem g ds tr -> alive g j = true -> ~ reaches g i j ->
    meaning (update i (fun _ => d) ds) j = meaning ds j.
  Proof.
    intros g ds tr i d j L S. induction j as [j IH] using lt_wf_ind. intros Ha Hn. assert (Hj := alive_lt _ _ Ha).
    assert (Hij : i <> j) by (intros ->; apply Hn; constructor).
    assert (E : nth_error (update i (fun _ => d) ds) j = nth_error ds j) by (rewrite nth_update; destruct (Nat.eqb i j) eqn:E; [apply Nat.eqb_eq in E; congruence|reflexivity]).
    assert (C : forall f args, kargs (kind_at g j) = args -> nth_error ds j = Some (Computed f args) -> meaning (update i (fun _ => d) ds) j = meaning ds j).
    { intros f args Ek Ed. assert (Hlt : forall a, In a args -> a < j) by (intros a H; apply (l_args _ L); unfold args_of; rewrite Ek; exact H).
      rewrite (meaning_computed _ j f args) by (rewrite ?E; assumption). rewrite (meaning_computed ds j f args) by assumption. f_equal. f_equal. apply map_ext_in.
      intros a Hin. assert (Ia : In a (args_of g j)) by (unfold args_of; rewrite Ek; exact Hin). apply IH; [apply Hlt; exact Hin|apply (l_alive _ L j); assumption|].
      intros R. apply Hn. apply r_step with a; assumption. }
    assert (Q := s_some _ _ _ _ _ _ S j Hj). destruct (kind_at g j) as [[|f a|f a]|] eqn:Ek; [| | |congruence].
    - assert (Ed := s_root _ _ _ _ _ _ S j Hj Ha Ek). rewrite (meaning_given _ j (option_map snd (val g j))) by (rewrite E; exact Ed). symmetry. apply meaning_given. exact Ed.
    - apply (C f a); [reflexivity|]. apply (s_node _ _ _ _ _ _ S); assumption.
    - apply (C f a); [reflexivity|]. apply (s_path _ _ _ _ _ _ S); assumption.
  Qed.

  Lemma root_update : forall g g1 g2 ds tr i x, links g -> sem g ds tr -> alive g i = true -> kind_at g i = Some KRoot ->
    (forall j, reaches g i j -> val g1 j = None) -> (forall j, val g1 j = val g j \/ reaches g i j) -> shape g g2 ->
    (forall j, val g2 j = if Nat.eqb i j then x else val g1 j) -> sem g2 (update i (fun _ => Given (option_map snd x)) ds) tr.
  Proof.
    intros g g1 g2 ds tr i x L S Ha Ek N1 U1 Sh V2. unfold sem. rewrite (sh_len _ _ Sh). pose proof S as S'. destruct S'.
    assert (O : forall j, i <> j -> nth_error (update i (fun _ => Given (option_map snd x)) ds) j = nth_error ds j).
    { intros j H. rewrite nth_update. apply Nat.eqb_neq in H. rewrite H. reflexivity. }
    assert (Av : forall a, alive g a = true -> ~ reaches g i a -> avail (kind_at g) (val g) a -> avail (kind_at g2) (val g2) a).
    { intros a Hal Hn A. apply avail_kind with (kind_at g); [intros; apply (sh_kind _ _ Sh)|].
      apply avail_mono with (val g) (fun j => alive g j = true /\ ~ reaches g i j); auto.
      - intros j b [H1 H2] Hb. split; [apply (l_alive _ L j); assumption|]. intros R. apply H2. apply r_step with b; assumption.
      - intros j [H1 H2] Hv. rewrite V2. destruct (Nat.eqb i j) eqn:E; [exfalso; apply Nat.eqb_eq in E; subst; apply H2; constructor|].
        destruct (U1 j) as [H|H]; [congruence|contradiction]. }
    constructor; auto; [rewrite length_update; assumption| | | | | | |]; intros j; rewrite ?(sh_kind _ _ Sh), ?(sh_alive _ _ Sh).
    - intros Hj Haj Ekj. destruct (Nat.eq_dec i j) as [<-|Hij].
      + rewrite nth_update, V2, Nat.eqb_refl. rewrite (s_root0 i Hj Haj Ekj). reflexivity.
      + rewrite O by exact Hij. rewrite (s_root0 j Hj Haj Ekj). do 3 f_equal. rewrite V2. apply Nat.eqb_neq in Hij. rewrite Hij.
        destruct (U1 j) as [H|R]; [congruence|]. apply Nat.eqb_neq in Hij. destruct R as [|k j R Hl Hk]; [congruence|]. unfold args_of in Hk. rewrite Ekj in Hk. destruct Hk.
    - intros f a Hj Haj Ekj. rewrite O by congruence. auto.
    - intros f a Hj Haj Ekj. rewrite O by congruence. auto.
    - intros f a Hj Haj Ekj. rewrite V2. destruct (Nat.eqb i j) eqn:E; [apply Nat.eqb_eq in E; congruence|].
      destruct (U1 j) as [H|R]; [rewrite H; eauto|apply N1; exact R].
    - eauto.
    - intros a. eauto.
    - intros f args s' v Hj Haj Htj Ekj. rewrite V2. destruct (Nat.eqb i j) eqn:E; [apply Nat.eqb_eq in E; congruence|]. intros Hv.
      assert (Hn : ~ reaches g i j) by (intros R; rewrite N1 in Hv by exact R; discriminate).
      destruct (U1 j) as [H|R]; [|contradiction]. rewrite H in Hv. destruct (s_val0 j f args s' v Hj Haj Htj Ekj Hv) as [M A]. split.
      + rewrite (meaning_update g ds tr i _ j L S Haj Hn). exact M.
      + intros a Hin. assert (Ia : In a (args_of g j)) by (unfold args_of; rewrite Ekj; exact Hin). apply Av; [apply (l_alive _ L j); assumption| |apply A; exact Hin].
        intros R. apply Hn. apply r_step with a; assumption.
  Qed.

  (** ** The machine *)
  Definition is_data (k : option kind) : Prop := match k with Some (KPath _ _) => False | Some _ => True | None => False end.
  Definition snap_ok (g : graph) (s : snapshot V) (o : list (def V) * list bool) : Prop :=
    exists sv, sem_on (length (fst o)) (alive g) (kind_at g) sv (fst o) (snd o) /\ length (fst o) <= length (cells g) /\
      (forall i x, In (i, x) s -> x = sv i /\ i < length (fst o) /\ is_data (kind_at g i)) /\
      (forall i, i < length (fst o) -> alive g i = true -> is_data (kind_at g i) -> In (i, sv i) s).
  Record rel (g : graph) (ss : list (snapshot V)) (w : world V) : Prop := {
    r_links : links g;
    r_sem : sem g (defs w) (sound w);
    r_len : length (handles w) = length (cells g);
    r_hand : forall i, nth i (handles w) 0 = held_n g i;
    r_held : forall i, held_n g i <> 0 -> alive g i = true;
    r_nodes : forall i, alive g i = true -> is_data (kind_at g i) -> In i (nodes g);
    r_data : forall i, In i (nodes g) -> is_data (kind_at g i);
    r_snap : Forall2 (snap_ok g) ss (saved w) }.

  Lemma data_lt : forall (g : graph) i, is_data (kind_at g i) -> i < length (cells g).
  Proof. intros g i H. apply nth_error_Some. unfold kind_at, cell_at in H. destruct (nth_error (cells g) i); [discriminate|destruct H]. Qed.
  Lemma sem_on_mono : forall n al al' K K' vl ds tr, (forall j, K j <> None -> K' j = K j) -> (forall j, j < n -> al' j = true -> al j = true) ->
    sem_on n al K vl ds tr -> sem_on n al' K' vl ds tr.
  Proof.
    intros n al al' K K' vl ds tr HK Hal []. assert (E : forall i, i < n -> K' i = K i) by (intros i Hi; apply HK; apply s_some0; exact Hi).
    constructor; auto; intros i.
    - intros Hi Ha. rewrite E by exact Hi. auto.
    - intros f a Hi Ha. rewrite E by exact Hi. auto.
    - intros f a Hi Ha. rewrite E by exact Hi. auto.
    - intros f a Hi Ha. rewrite E by exact Hi. eauto.
    - intros Hi. rewrite E by exact Hi. auto.
    - intros a Hi Ha. rewrite E by exact Hi. eauto.
    - intros f args s' v Hi Ha Ht. rewrite E by exact Hi. intros Ek Ev. destruct (s_val0 i f args s' v Hi (Hal i Hi Ha) Ht Ek Ev) as [M A]. split; [exact M|].
      intros a Hin. apply avail_kind with K; [exact HK|apply A; exact Hin].
  Qed.
  Lemma kind_some : forall (g : graph) j, kind_at g j <> None -> j < length (cells g).
  Proof. intros g j H. apply nth_error_Some. unfold kind_at, cell_at in H. intros E. rewrite E in H. apply H. reflexivity. Qed.
  Lemma snap_mono : forall g g' s o, (forall i, i < length (cells g) -> kind_at g' i = kind_at g i) ->
    (forall i, i < length (cells g) -> alive g' i = true -> alive g i = true) -> length (cells g) <= length (cells g') -> snap_ok g s o -> snap_ok g' s o.
  Proof.
    intros g g' s o HK Ha Hl [sv [S [Hlen [H1 H2]]]]. exists sv. split; [|split; [lia|split]].
    - apply sem_on_mono with (alive g) (kind_at g); [|intros j Hj; apply Ha; lia|exact S]. intros j Hj. apply HK. apply kind_some. exact Hj.
    - intros i x Hin. destruct (H1 i x Hin) as [E [L D]]. split; [exact E|]. split; [exact L|]. rewrite HK by (apply data_lt; exact D). exact D.
    - intros i Hi Hal. rewrite HK by lia. intros D. apply H2; auto. apply Ha; [lia|exact Hal].
  Qed.
  Lemma snaps_impl : forall (P Q : snapshot V -> list (def V) * list bool -> Prop) ss os, Forall2 P ss os -> (forall s o, P s o -> Q s o) -> Forall2 Q ss os.
  Proof. intros P Q ss os H I. induction H; constructor; auto. Qed.
  Lemma snaps_shape : forall g g' ss os, shape g g' -> Forall2 (snap_ok g) ss os -> Forall2 (snap_ok g') ss os.
  Proof.
    intros g g' ss os Sh H. apply (snaps_impl _ _ _ _ H). intros s o. apply snap_mono.
    - intros i _. apply (sh_kind _ _ Sh).
    - intros i _. rewrite (sh_alive _ _ Sh). auto.
    - rewrite (sh_len _ _ Sh). lia.
  Qed.
  Lemma rel_shape : forall g g' ss w ds, shape g g' -> sem g' ds (sound w) -> rel g ss w -> rel g' ss (mkWorld ds (handles w) (sound w) (saved w)).
  Proof.
    intros g g' ss w ds Sh S' []. constructor; cbn [handles sound saved defs]; auto.
    - apply links_shape with g; assumption.
    - rewrite (sh_len _ _ Sh). assumption.
    - intros i. rewrite (sh_held _ _ Sh). auto.
    - intros i. rewrite (sh_held _ _ Sh), (sh_alive _ _ Sh). auto.
    - intros i. rewrite (sh_kind _ _ Sh), (sh_alive _ _ Sh), (sh_nodes _ _ Sh). auto.
    - intros i. rewrite (sh_kind _ _ Sh), (sh_nodes _ _ Sh). auto.
    - apply snaps_shape with g; assumption.
  Qed.

  Lemma held_holds : forall g ss w i, rel g ss w -> held g i = holds w i.
  Proof. intros g ss w i R. unfold holds. rewrite (r_hand _ _ _ R). unfold held, held_n. destruct (cell_at g i); reflexivity. Qed.
  Lemma held_alive : forall g ss w i, rel g ss w -> held g i = true -> alive g i = true.
  Proof. intros g ss w i R H. apply (r_held _ _ _ R). unfold held, held_n in *. destruct (cell_at g i); [|discriminate]. apply negb_true_iff, Nat.eqb_neq in H. exact H. Qed.
  Lemma root_given : forall g ss w i, rel g ss w -> alive g i = true -> is_given w i = true -> kind_at g i = Some KRoot.
  Proof.
    intros g ss w i R Ha Hg. assert (Hi := alive_lt _ _ Ha). assert (S := r_sem _ _ _ R). assert (Q := s_some _ _ _ _ _ _ S i Hi). unfold is_given in Hg.
    destruct (kind_at g i) as [[|f a|f a]|] eqn:E; [reflexivity| | |congruence].
    - rewrite (s_node _ _ _ _ _ _ S i f a Hi Ha E) in Hg. discriminate.
    - rewrite (s_path _ _ _ _ _ _ S i f a Hi Ha E) in Hg. discriminate.
  Qed.
  Lemma kind_is_root : forall (g : graph) i, kind_at g i = Some KRoot -> is_root g i = true.
  Proof. intros g i H. unfold is_root, kind_at in *. destruct (cell_at g i) as [c|]; [|discriminate]. cbn in H. injection H as ->. reflexivity. Qed.

  Lemma set_root : forall g ss w i v, rel g ss w -> alive g i = true -> kind_at g i = Some KRoot ->
    exists g', set i v g = Ok g' /\ rel g' ss (mkWorld (update i (fun _ => Given (Some v)) (defs w)) (handles w) (sound w) (saved w)).
  Proof.
    intros g ss w i v R Ha Ek. assert (L := r_links _ _ _ R). assert (Hi := alive_lt _ _ Ha). unfold set.
    destruct (unset_spec (length (cells g)) i g L Hi ltac:(lia)) as [g1 [E1 [S1 [C1 [N1 U1]]]]]. rewrite E1. cbn [bind]. eexists. split; [reflexivity|].
    assert (S2 : shape g1 (store i v g1)) by (destruct (shape_value i (Some (clock g1, v)) g1); constructor; assumption).
    assert (S12 := shape_trans _ _ _ S1 S2). apply rel_shape with g; [exact S12| |exact R].
    apply (root_update g g1 (store i v g1) (defs w) (sound w) i (Some (clock g1, v)) L (r_sem _ _ _ R) Ha Ek N1 U1 S12).
    intros j. change (val (store i v g1) j) with (val (modify i (with_value (Some (clock g1, v))) g1) j). apply val_value. rewrite (sh_len _ _ S1). exact Hi.
  Qed.
  Lemma unset_root : forall g ss w i, rel g ss w -> alive g i = true -> kind_at g i = Some KRoot ->
    exists g', unset (length (cells g)) i g = Ok g' /\ rel g' ss (mkWorld (update i (fun _ => Given None) (defs w)) (handles w) (sound w) (saved w)).
  Proof.
    intros g ss w i R Ha Ek. assert (L := r_links _ _ _ R). assert (Hi := alive_lt _ _ Ha).
    destruct (unset_spec (length (cells g)) i g L Hi ltac:(lia)) as [g1 [E1 [S1 [C1 [N1 U1]]]]]. exists g1. split; [exact E1|].
    apply rel_shape with g; [exact S1| |exact R]. apply (root_update g g1 g1 (defs w) (sound w) i None L (r_sem _ _ _ R) Ha Ek N1 U1 S1).
    intros j. destruct (Nat.eqb i j) eqn:E; [|reflexivity]. apply Nat.eqb_eq in E. subst. apply N1. constructor.
  Qed.
  Lemma read_cell : forall g ss w i v, rel g ss w -> alive g i = true -> nth i (sound w) false = true -> meaning (defs w) i = Some v ->
    exists a g', get (S (length (cells g))) i g = Ok (a, g') /\ answer_value a = v /\ rel g' ss w.
  Proof.
    intros g ss w i v R Ha Ht Em. assert (Hi := alive_lt _ _ Ha).
    destruct (get_spec (defs w) (sound w) (S (length (cells g))) i g v ltac:(lia) (r_links _ _ _ R) (r_sem _ _ _ R) Ha Ht Em) as [a [g' [E [Va [_ [S' [Sh _]]]]]]].
    exists a, g'. split; [exact E|]. split; [exact Va|]. destruct w as [ds hs so sa]. exact (rel_shape g g' ss _ ds Sh S' R).
  Qed.

  (** ** New cells *)
  Lemma subscribe_cell : forall args n (g : graph) j, exists d, cell_at (subscribe args n g) j = option_map (with_down d) (cell_at g j) /\
    forall x, In x d <-> In x (down_of g j) \/ (x = n /\ In j args).
  Proof.
    induction args as [|a args IH]; intros n g j.
    - exists (down_of g j). cbn. split; [|intros x; tauto]. unfold down_of. destruct (cell_at g j) as [[]|]; reflexivity.
    - cbn [subscribe fold_left]. fold (subscribe args n (modify a (fun c => with_down (c_down c ++ [n]) c) g)).
      destruct (IH n (modify a (fun c => with_down (c_down c ++ [n]) c) g) j) as [d [E D]]. destruct (cell_at g j) as [c|] eqn:Ec.
      + exists d. rewrite E, cell_modify, Ec. split; [destruct (Nat.eqb a j); reflexivity|]. intros x. rewrite D. unfold down_of. rewrite cell_modify, Ec. cbn [In].
        destruct (Nat.eqb a j) eqn:Ea; cbn.
        * apply Nat.eqb_eq in Ea. rewrite in_app_iff. cbn. subst a. intuition.
        * apply Nat.eqb_neq in Ea. intuition.
      + exists (if existsb (Nat.eqb j) (a :: args) then [n] else []). rewrite E, cell_modify, Ec. split; [destruct (Nat.eqb a j); reflexivity|].
        unfold down_of. rewrite Ec. intros x. cbn [In]. destruct (existsb (Nat.eqb j) (a :: args)) eqn:Ex.
        * apply existsb_exists in Ex. destruct Ex as [y [Hy Ey]]. apply Nat.eqb_eq in Ey. subst y. cbn. split; [intros [<-|[]]; right; split; [reflexivity|]; exact Hy|intros [[]|[-> _]]; left; reflexivity].
        * split; [intros []|]. intros [[]|[_ Hin]]. assert (existsb (Nat.eqb j) (a :: args) = true); [|congruence]. apply existsb_exists. exists j. split; [exact Hin|apply Nat.eqb_refl].
  Qed.
  Lemma length_subscribe : forall args n (g : graph), length (cells (subscribe args n g)) = length (cells g).
  Proof. induction args as [|a args IH]; intros n g; [reflexivity|]. cbn [subscribe fold_left]. fold (subscribe args n (modify a (fun c => with_down (c_down c ++ [n]) c) g)). rewrite IH. apply length_modify. Qed.
  Lemma nodes_subscribe : forall args n (g : graph), nodes (subscribe args n g) = nodes g.
  Proof. induction args as [|a args IH]; intros n g; [reflexivity|]. cbn [subscribe fold_left]. fold (subscribe args n (modify a (fun c => with_down (c_down c ++ [n]) c) g)). rewrite IH. reflexivity. Qed.

  Definition def_of (k : kind) : def V := match k with KRoot => Given None | KNode f a => Computed f a | KPath f a => Computed f a end.

  Lemma rel_new : forall g ss w k, rel g ss w -> (forall a, In a (kargs (Some k)) -> alive g a = true) ->
    rel (new_computed k (kargs (Some k)) g) ss
      (mkWorld (defs w ++ [def_of k]) (handles w ++ [1]) (sound w ++ [forallb (fun a => nth a (sound w) false) (kargs (Some k))]) (saved w)).
  Proof.
    intros g ss w k R Harg. set (args := kargs (Some k)) in *. set (n := length (cells g)). unfold new_computed. fold n. set (g' := subscribe args n (add_cell k g)).
    assert (Hlt : forall a, In a args -> a < n) by (intros a H; apply alive_lt, Harg, H).
    assert (Ln : length (cells g') = S n) by (unfold g'; rewrite length_subscribe; cbn; rewrite app_length; cbn; unfold n; lia).
    assert (C : forall j, j < n -> exists d, cell_at g' j = option_map (with_down d) (cell_at g j) /\ forall x, In x d <-> In x (down_of g j) \/ (x = n /\ In j args)).
    { intros j Hj. destruct (subscribe_cell args n (add_cell k g) j) as [d [E D]]. exists d.
      assert (E0 : cell_at (add_cell k g) j = cell_at g j) by (unfold cell_at; cbn; apply nth_error_app1; exact Hj).
      unfold down_of in D. rewrite E0 in D. rewrite E0 in E. split; [exact E|exact D]. }
    assert (Cn : exists d, cell_at g' n = Some (mkCell k None d 1 true) /\ d = []).
    { destruct (subscribe_cell args n (add_cell k g) n) as [d [E D]].
      assert (E0 : cell_at (add_cell k g) n = Some (mkCell k None [] 1 true)) by (unfold cell_at; cbn; rewrite nth_error_app2 by (unfold n; lia); unfold n; rewrite Nat.sub_diag; reflexivity).
      unfold down_of in D. rewrite E0 in D. rewrite E0 in E. exists d. split; [exact E|]. destruct d as [|x d]; [reflexivity|]. exfalso.
      destruct (proj1 (D x)) as [[]|[_ H]]; [left; reflexivity|]. apply Hlt in H. lia. }
    destruct Cn as [dn [Cn ->]].
    assert (Cg : forall j, n < j -> cell_at g' j = None) by (intros j Hj; apply nth_error_None; rewrite Ln; lia).
    assert (Cg0 : forall j, n <= j -> cell_at g j = None) by (intros j Hj; apply nth_error_None; fold n; lia).
    assert (Kk : forall j, j < n -> kind_at g' j = kind_at g j) by (intros j Hj; destruct (C j Hj) as [d [E _]]; unfold kind_at; rewrite E; destruct (cell_at g j); reflexivity).
    assert (Kn : kind_at g' n = Some k) by (unfold kind_at; rewrite Cn; reflexivity).
    assert (Vk : forall j, j < n -> val g' j = val g j) by (intros j Hj; destruct (C j Hj) as [d [E _]]; unfold val; rewrite E; destruct (cell_at g j); reflexivity).
    assert (Ak : forall j, j < n -> alive g' j = alive g j) by (intros j Hj; destruct (C j Hj) as [d [E _]]; unfold alive; rewrite E; destruct (cell_at g j); reflexivity).
    assert (Hk : forall j, j < n -> held_n g' j = held_n g j) by (intros j Hj; destruct (C j Hj) as [d [E _]]; unfold held_n; rewrite E; destruct (cell_at g j); reflexivity).
    assert (Dk : forall j, j < n -> forall x, In x (down_of g' j) <-> In x (down_of g j) \/ (x = n /\ In j args)).
    { intros j Hj. destruct (C j Hj) as [d [E D]]. destruct (cell_lt g j Hj) as [c Ec]. unfold down_of at 1. rewrite E, Ec. exact D. }
    assert (An : alive g' n = true) by (unfold alive; rewrite Cn; reflexivity).
    assert (T : forall j, {j < n} + {j = n} + {n < j}) by (intros j; destruct (lt_eq_lt_dec j n) as [[]|]; auto).
    assert (Gk : forall j, n < j -> kind_at g' j = None) by (intros j Hj; unfold kind_at; rewrite Cg by exact Hj; reflexivity).
    assert (Ga : forall j, n < j -> alive g' j = false) by (intros j Hj; unfold alive; rewrite Cg by exact Hj; reflexivity).
    destruct R as [RL RS Rlen Rh Rhe Rn Rd Rs].
    assert (Lk : links g').
    { constructor.
      - intros j a. unfold args_of. destruct (T j) as [[Hj| ->]|Hj]; [rewrite Kk by exact Hj; apply (l_args _ RL)|rewrite Kn; apply Hlt|rewrite Gk by exact Hj; intros []].
      - intros j a. unfold args_of. destruct (T j) as [[Hj| ->]|Hj].
        + rewrite Kk, Ak by exact Hj. intros Ha Hin. assert (Hlt' := l_args _ RL _ _ Hin). rewrite Ak by lia. apply (l_alive _ RL j); assumption.
        + rewrite Kn. intros _ Hin. rewrite Ak by (apply Hlt; exact Hin). apply Harg. exact Hin.
        + rewrite Ga by exact Hj. discriminate.
      - intros j a. unfold args_of. destruct (T j) as [[Hj| ->]|Hj].
        + rewrite Kk, Ak by exact Hj. intros Ha Hin. assert (Hlt' := l_args _ RL _ _ Hin). apply Dk; [lia|]. left. apply (l_down _ RL); assumption.
        + rewrite Kn. intros _ Hin. apply Dk; [apply Hlt; exact Hin|]. right. split; [reflexivity|exact Hin].
        + rewrite Ga by exact Hj. discriminate.
      - intros j a Hin. destruct (T a) as [[Ha| ->]|Ha].
        + apply Dk in Hin; [|exact Ha]. destruct Hin as [Hin|[-> Hin]]; [|unfold args_of; rewrite Kn; exact Hin].
          assert (Hb := l_back _ RL _ _ Hin). assert (Hj : j < n) by (destruct (Nat.lt_ge_cases j n) as [|Hge]; [assumption|]; unfold args_of, kind_at in Hb; rewrite Cg0 in Hb by exact Hge; destruct Hb).
          unfold args_of. rewrite Kk by exact Hj. exact Hb.
        + unfold down_of in Hin. rewrite Cn in Hin. destruct Hin.
        + unfold down_of in Hin. rewrite Cg in Hin by exact Ha. destruct Hin. }
    assert (Av : forall a, avail (kind_at g) (val g) a -> avail (kind_at g') (val g') a).
    { intros a A. apply avail_kind with (kind_at g); [intros j Hj; apply Kk, kind_some; exact Hj|].
      induction A as [i E H|i f b E H|i f b E H IH].
      - apply av_root; [exact E|]. rewrite Vk; [exact H|apply kind_some; congruence].
      - eapply av_node; [exact E|]. rewrite Vk; [exact H|apply kind_some; congruence].
      - eapply av_path; [exact E|exact IH]. }
    constructor; cbn [defs handles sound saved]; auto.
    - unfold sem. rewrite Ln. pose proof RS as S'. destruct S'. fold n in s_len0, s_len'0.
      assert (N1 : forall j, j < n -> nth_error (defs w ++ [def_of k]) j = nth_error (defs w) j) by (intros j Hj; apply nth_error_app1; lia).
      assert (Nn : nth_error (defs w ++ [def_of k]) n = Some (def_of k)) by (rewrite nth_error_app2 by lia; rewrite s_len0, Nat.sub_diag; reflexivity).
      assert (B1 : forall b j, j < n -> nth j (sound w ++ [b]) false = nth j (sound w) false) by (intros b j Hj; apply app_nth1; lia).
      assert (Vn : val g' n = None) by (unfold val; rewrite Cn; reflexivity).
      constructor; try (rewrite app_length; cbn; lia).
      + intros i Hi. destruct (T i) as [[Hj| ->]|Hj]; [|rewrite Kn, Nn, Vn; intros _ E; injection E as ->; reflexivity|lia].
        rewrite Ak, Kk, N1, Vk by exact Hj. apply s_root0. exact Hj.
      + intros i f a Hi. destruct (T i) as [[Hj| ->]|Hj]; [|rewrite Kn, Nn; intros _ E; injection E as ->; reflexivity|lia]. rewrite Ak, Kk, N1 by exact Hj. apply s_node0. exact Hj.
      + intros i f a Hi. destruct (T i) as [[Hj| ->]|Hj]; [|rewrite Kn, Nn; intros _ E; injection E as ->; reflexivity|lia]. rewrite Ak, Kk, N1 by exact Hj. apply s_path0. exact Hj.
      + intros i f a Hi. destruct (T i) as [[Hj| ->]|Hj]; [|intros; exact Vn|lia]. rewrite Ak, Kk, Vk by exact Hj. apply s_empty0. exact Hj.
      + intros i Hi. destruct (T i) as [[Hj| ->]|Hj]; [rewrite Kk by exact Hj; apply s_some0; exact Hj|rewrite Kn; discriminate|lia].
      + intros i a Hi. destruct (T i) as [[Hj| ->]|Hj]; [| |lia].
        * rewrite Ak, Kk, B1 by exact Hj. intros Ha Ht Hin. assert (a < i) by (apply (l_args _ RL); exact Hin). rewrite B1 by lia. apply (s_up0 i); assumption.
        * rewrite Kn. intros _ Ht Hin. rewrite B1 by (apply Hlt; exact Hin). rewrite app_nth2, s_len'0, Nat.sub_diag in Ht by lia. cbn [nth] in Ht. rewrite forallb_forall in Ht. apply Ht. exact Hin.
      + intros i f a s' v Hi. destruct (T i) as [[Hj| ->]|Hj]; [|rewrite Vn; discriminate|lia]. rewrite Ak, Kk, Vk, B1 by exact Hj. intros Ha Ht Ek Ev.
        destruct (s_val0 i f a s' v Hj Ha Ht Ek Ev) as [M A]. rewrite meaning_app by lia. split; [exact M|]. intros b Hb. apply Av, A, Hb.
    - rewrite app_length, Ln. cbn. unfold n. lia.
    - intros i. fold n in Rlen. destruct (T i) as [[Hj| ->]|Hj].
      + rewrite app_nth1 by lia. rewrite Hk by exact Hj. apply Rh.
      + rewrite app_nth2, Rlen, Nat.sub_diag by lia. unfold held_n. rewrite Cn. reflexivity.
      + rewrite nth_overflow by (rewrite app_length; cbn; lia). unfold held_n. rewrite Cg by exact Hj. reflexivity.
    - intros i. destruct (T i) as [[Hj| ->]|Hj]; [rewrite Hk, Ak by exact Hj; apply Rhe|auto|]. unfold held_n. rewrite Cg by exact Hj. congruence.
    - intros i. unfold g'. rewrite nodes_subscribe. fold g'. destruct (T i) as [[Hj| ->]|Hj]; [| |rewrite Ga by exact Hj; discriminate].
      + rewrite Ak, Kk by exact Hj. intros Ha Hd. cbn. destruct k; rewrite ?in_app_iff; auto.
      + rewrite Kn. intros _ Hd. cbn. destruct k; try destruct Hd; apply in_app_iff; right; left; reflexivity.
    - intros i. unfold g' at 1. rewrite nodes_subscribe. intros Hin.
      assert (H : In i (nodes g) \/ (i = n /\ is_data (Some k))).
      { cbn in Hin. destruct k; rewrite ?in_app_iff in Hin; cbn; [destruct Hin as [H|[<-|[]]]; auto|destruct Hin as [H|[<-|[]]]; auto|auto]. }
      destruct H as [H|[-> H]]; [|rewrite Kn; exact H]. specialize (Rd i H). rewrite Kk by (apply data_lt; exact Rd). exact Rd.
    - apply (snaps_impl _ _ _ _ Rs). intros s o. apply snap_mono; [exact Kk|intros i Hi; rewrite Ak by exact Hi; auto|rewrite Ln; unfold n; lia].
  Qed.

  (** ** Handles *)
  Lemma sem_on_val : forall n al K vl vl' ds tr, (forall j, vl' j = vl j) -> sem_on n al K vl ds tr -> sem_on n al K vl' ds tr.
  Proof.
    intros n al K vl vl' ds tr H []. constructor; auto.
    - intros i Hi Ha Ek. rewrite H. auto.
    - intros i f a Hi Ha Ek. rewrite H. eauto.
    - intros i f args s' v Hi Ha Ht Ek Ev. rewrite H in Ev. destruct (s_val0 i f args s' v Hi Ha Ht Ek Ev) as [M A]. split; [exact M|].
      intros a Hin. apply avail_mono with vl (fun _ => True); auto. intros j _ Hj. rewrite H. exact Hj.
  Qed.
  (** changes to handles and liveness only *)
  Lemma rel_like : forall g g' ss w hs, rel g ss w -> length (cells g') = length (cells g) -> (forall j, kind_at g' j = kind_at g j) -> (forall j, val g' j = val g j) ->
    (forall j, down_of g' j = down_of g j) -> nodes g' = nodes g -> (forall j, alive g' j = true -> alive g j = true) ->
    (forall j a, alive g' j = true -> In a (args_of g j) -> alive g' a = true) -> length hs = length (cells g) -> (forall i, nth i hs 0 = held_n g' i) ->
    (forall i, held_n g' i <> 0 -> alive g' i = true) -> rel g' ss (mkWorld (defs w) hs (sound w) (saved w)).
  Proof.
    intros g g' ss w hs [] El Ek Ev Ed En Ha Harg Hh Hn Hheld. assert (Ea : forall j, args_of g' j = args_of g j) by (intros j; unfold args_of; rewrite Ek; reflexivity).
    constructor; cbn [defs handles sound saved]; auto.
    - destruct r_links0. constructor; intros j a; rewrite ?Ea, ?Ed; eauto.
    - unfold sem. rewrite El. apply sem_on_val with (val g); [exact Ev|]. apply sem_on_mono with (alive g) (kind_at g); auto.
    - congruence.
    - intros i Hi. rewrite Ek, En. auto.
    - intros i. rewrite Ek, En. auto.
    - apply (snaps_impl _ _ _ _ r_snap0). intros s o. apply snap_mono; [intros; apply Ek|intros; auto|lia].
  Qed.
  Lemma rel_handle : forall g ss w i h, rel g ss w -> alive g i = true ->
    rel (modify i (fun c => with_held (h (c_held c)) c) g) ss (mkWorld (defs w) (update i h (handles w)) (sound w) (saved w)).
  Proof.
    intros g ss w i h R Ha. assert (Hi := alive_lt _ _ Ha). set (g' := modify _ _ _).
    assert (C : forall j, cell_at g' j = if Nat.eqb i j then option_map (fun c => with_held (h (c_held c)) c) (cell_at g j) else cell_at g j) by (intros; apply cell_modify).
    assert (A : forall j, alive g' j = alive g j) by (intros j; unfold alive; rewrite C; destruct (Nat.eqb i j); [|reflexivity]; destruct (cell_at g j); reflexivity).
    apply rel_like with g; auto.
    - apply length_modify.
    - intros j. unfold kind_at. rewrite C. destruct (Nat.eqb i j); [|reflexivity]. destruct (cell_at g j); reflexivity.
    - intros j. unfold val. rewrite C. destruct (Nat.eqb i j); [|reflexivity]. destruct (cell_at g j); reflexivity.
    - intros j. unfold down_of. rewrite C. destruct (Nat.eqb i j); [|reflexivity]. destruct (cell_at g j); reflexivity.
    - intros j. rewrite A. auto.
    - intros j a. rewrite !A. apply (l_alive _ (r_links _ _ _ R)).
    - rewrite length_update. apply (r_len _ _ _ R).
    - intros j. assert (Hh := r_hand _ _ _ R j). unfold held_n in *. rewrite C. rewrite <- (nth_default_eq j (update i h (handles w)) 0), <- (nth_default_eq j (handles w) 0) in *.
      unfold nth_default in *. rewrite nth_update. destruct (Nat.eqb i j) eqn:E; [|exact Hh]. apply Nat.eqb_eq in E. subst j.
      destruct (cell_lt _ _ Hi) as [c Ec]. rewrite Ec in *. cbn. destruct (nth_error (handles w) i) eqn:En; [cbn; congruence|].
      apply nth_error_None in En. rewrite (r_len _ _ _ R) in En. lia.
    - intros j. rewrite A. unfold held_n. rewrite C. destruct (Nat.eqb i j) eqn:E; [apply Nat.eqb_eq in E; subst; auto|]. apply (r_held _ _ _ R j).
  Qed.
  Lemma captured_args : forall (g : graph) i j, captured g i = false -> alive g j = true -> ~ In i (args_of g j).
  Proof.
    intros g i j H Ha Hin. unfold alive in Ha. destruct (cell_at g j) as [c|] eqn:Ec; [|discriminate]. assert (captured g i = true); [|congruence].
    apply existsb_exists. exists c. split; [apply nth_error_In with j; exact Ec|]. rewrite Ha. cbn. apply existsb_exists. exists i. rewrite (kargs_cell _ _ _ Ec) in Hin. split; [exact Hin|apply Nat.eqb_refl].
  Qed.
  Lemma rel_kill : forall g ss w i, rel g ss w -> held_n g i = 0 -> captured g i = false -> rel (modify i (with_alive false) g) ss w.
  Proof.
    intros g ss w i R Hh Hc. set (g' := modify _ _ _).
    assert (C : forall j, cell_at g' j = if Nat.eqb i j then option_map (with_alive false) (cell_at g j) else cell_at g j) by (intros; apply cell_modify).
    assert (A : forall j, alive g' j = if Nat.eqb i j then false else alive g j) by (intros j; unfold alive; rewrite C; destruct (Nat.eqb i j); [|reflexivity]; destruct (cell_at g j); reflexivity).
    assert (H' : forall j, held_n g' j = held_n g j) by (intros j; unfold held_n; rewrite C; destruct (Nat.eqb i j); [|reflexivity]; destruct (cell_at g j); reflexivity).
    destruct w as [ds hs so sa] eqn:Ew. rewrite <- Ew in R. replace ds with (defs w) by (rewrite Ew; reflexivity). replace so with (sound w) by (rewrite Ew; reflexivity). replace sa with (saved w) by (rewrite Ew; reflexivity).
    assert (Ehs : hs = handles w) by (rewrite Ew; reflexivity).
    apply rel_like with g; auto.
    - apply length_modify.
    - intros j. unfold kind_at. rewrite C. destruct (Nat.eqb i j); [|reflexivity]. destruct (cell_at g j); reflexivity.
    - intros j. unfold val. rewrite C. destruct (Nat.eqb i j); [|reflexivity]. destruct (cell_at g j); reflexivity.
    - intros j. unfold down_of. rewrite C. destruct (Nat.eqb i j); [|reflexivity]. destruct (cell_at g j); reflexivity.
    - intros j. rewrite A. destruct (Nat.eqb i j); [discriminate|auto].
    - intros j a. rewrite !A. destruct (Nat.eqb i j); [discriminate|]. intros Ha Hin. destruct (Nat.eqb i a) eqn:E; [|apply (l_alive _ (r_links _ _ _ R) j); assumption].
      apply Nat.eqb_eq in E. subst a. exfalso. apply (captured_args g i j); assumption.
    - subst hs. apply (r_len _ _ _ R).
    - intros j. rewrite H'. subst hs. apply (r_hand _ _ _ R).
    - intros j. rewrite H', A. intros H. destruct (Nat.eqb i j) eqn:E; [apply Nat.eqb_eq in E; congruence|]. apply (r_held _ _ _ R). exact H.
  Qed.
  Lemma rel_collect : forall k g ss w, rel g ss w -> rel (collect k g) ss w.
  Proof.
    induction k as [|k IH]; intros g ss w R; [exact R|]. cbn [collect]. apply IH. destruct (held g k) eqn:Eh; [exact R|]. destruct (captured g k) eqn:Ec; [exact R|]. cbn.
    apply rel_kill; auto. unfold held, held_n in *. destruct (cell_at g k); [|reflexivity]. apply negb_false_iff, Nat.eqb_eq in Eh. exact Eh.
  Qed.

  (** ** Snapshots *)
  Lemma rel_dump : forall g ss w, rel g ss w -> rel (fst (dump g)) (ss ++ [snd (dump g)]) (mkWorld (defs w) (handles w) (sound w) (saved w ++ [(defs w, sound w)])).
  Proof.
    intros g ss w R. destruct R. constructor; cbn [defs handles sound saved]; auto.
    - destruct r_links0. constructor; assumption.
    - intros i Ha Hd. cbn. apply filter_In. split; [apply r_nodes0; assumption|exact Ha].
    - intros i Hin. cbn in Hin. apply filter_In in Hin. apply r_data0. apply Hin.
    - assert (S := r_sem0). assert (El : length (defs w) = length (cells g)) by (apply (s_len _ _ _ _ _ _ S)). apply Forall2_app; [exact r_snap0|]. constructor; [|constructor].
      exists (val g). cbn [fst snd]. rewrite El. split; [exact S|]. split; [cbn; lia|]. split.
      + intros i x Hin. cbn in Hin. apply in_map_iff in Hin. destruct Hin as [j [E Hin]]. injection E as <- <-. apply filter_In in Hin. destruct Hin as [Hin _]. split; [reflexivity|].
        assert (D := r_data0 _ Hin). split; [apply data_lt; exact D|exact D].
      + intros i Hi Ha Hd. cbn. apply in_map_iff. exists i. split; [reflexivity|]. apply filter_In. split; [apply r_nodes0; assumption|exact Ha].
  Qed.

  Lemma load_values : forall sv (s : snapshot V) (g : graph), (forall i x, In (i, x) s -> x = sv i /\ i < length (cells g)) ->
    let g' := fold_left (fun g iv => modify (fst iv) (with_value (snd iv)) g) s g in
    shape g g' /\ (forall i, In i (map fst s) -> val g' i = sv i) /\ (forall i, ~ In i (map fst s) -> val g' i = val g i).
  Proof.
    intros sv s. induction s as [|[i x] s IH]; intros g H; cbn [fold_left fst snd map].
    - split; [apply shape_refl|]. split; [intros i []|reflexivity].
    - destruct (H i x) as [Ex Hi]; [left; reflexivity|]. destruct (IH (modify i (with_value x) g)) as [Sh [V1 V2]].
      { intros j y Hin. rewrite length_modify. apply H. right. exact Hin. }
      split; [apply shape_trans with (modify i (with_value x) g); [apply shape_value|exact Sh]|]. split.
      + intros j Hj. destruct (in_dec Nat.eq_dec j (map fst s)) as [Hin|Hout]; [apply V1; exact Hin|]. rewrite V2 by exact Hout. rewrite val_value by exact Hi.
        destruct Hj as [<-|Hj]; [|contradiction]. rewrite Nat.eqb_refl. exact Ex.
      + intros j Hj. rewrite V2 by (intros Hin; apply Hj; right; exact Hin). rewrite val_value by exact Hi. destruct (Nat.eqb i j) eqn:E; [|reflexivity].
        apply Nat.eqb_eq in E. subst j. exfalso. apply Hj. left. reflexivity.
  Qed.

  Lemma still_sound_spec : forall (es : list (def V)) done n ss, length ss = length es ->
    exists rest, still_sound done n es ss = done ++ rest /\ length rest = length es /\
      forall i, nth i rest false = true -> nth i ss false = true /\
        forall f args a, nth_error es i = Some (Computed f args) -> In a args -> n <= a /\ nth a (done ++ rest) false = true.
  Proof.
    induction es as [|d es IH]; intros done n [|s ss] Hl; try discriminate.
    - exists []. rewrite app_nil_r. split; [reflexivity|]. split; [reflexivity|]. intros [|i]; discriminate.
    - cbn [still_sound]. set (ok := match d with Given _ => true | Computed _ args => forallb (fun a => Nat.leb n a && nth a done false) args end).
      destruct (IH (done ++ [s && ok]) n ss) as [rest [E [Er H]]]; [cbn in Hl; lia|]. exists ((s && ok) :: rest). rewrite <- app_assoc in E. split; [exact E|]. split; [cbn; lia|].
      intros [|i] Hi.
      + cbn in Hi. apply andb_prop in Hi. destruct Hi as [Hs Hok]. split; [exact Hs|]. intros f args a Ed Hin. cbn in Ed. injection Ed as ->. cbn in ok. unfold ok in Hok.
        rewrite forallb_forall in Hok. specialize (Hok a Hin). apply andb_prop in Hok. destruct Hok as [H1 H2]. apply Nat.leb_le in H1. split; [exact H1|].
        rewrite app_nth1; [exact H2|]. destruct (Nat.lt_ge_cases a (length done)) as [|Hge]; [assumption|]. rewrite nth_overflow in H2 by exact Hge. discriminate.
      + cbn [nth] in Hi. destruct (H i Hi) as [H1 H2]. split; [exact H1|]. intros f args a Ed Hin. destruct (H2 f args a Ed Hin) as [H3 H4]. split; [exact H3|]. rewrite <- app_assoc in H4. exact H4.
  Qed.

  Lemma rel_load : forall g ss w k s old so, rel g ss w -> nth_error ss k = Some s -> nth_error (saved w) k = Some (old, so) ->
    rel (fst (load s g)) (update k (fun _ => snd (load s g)) ss)
      (mkWorld (restore old (defs w)) (handles w) (still_sound so (length old) (skipn (length old) (defs w)) (skipn (length old) (sound w))) (saved w)).
  Proof.
    intros g ss w k s old so R Es Eo.
    assert (Sn : snap_ok g s (old, so)).
    { assert (F := r_snap _ _ _ R). clear - F Es Eo. revert k Es Eo. induction F as [|a b l1 l2 H F IH]; intros [|k] Es Eo; try discriminate; cbn in *; [congruence|apply (IH k); assumption]. }
    destruct Sn as [sv [So [Hlen [H1 H2]]]]. cbn [fst snd] in *. set (n := length old) in *. unfold load. cbn [fst snd]. set (s' := filter (fun iv => alive g (fst iv)) s).
    assert (R' := R). destruct R' as [RL RS Rlen Rh Rhe Rn Rd Rs].
    destruct (load_values sv s' g) as [Sh [V1 V2]].
    { intros i x Hin. apply filter_In in Hin. destruct (H1 i x (proj1 Hin)) as [E [L D]]. split; [exact E|]. lia. }
    set (g' := fold_left _ s' g) in *.
    assert (Hs' : forall i, In i (map fst s') <-> i < n /\ alive g i = true /\ is_data (kind_at g i)).
    { intros i. split.
      - intros Hin. apply in_map_iff in Hin. destruct Hin as [[j x] [E Hin]]. cbn in E. subst j. apply filter_In in Hin. destruct Hin as [Hin Ha]. destruct (H1 i x Hin) as [_ [L D]]. auto.
      - intros [Hi [Ha Hd]]. apply in_map_iff. exists (i, sv i). split; [reflexivity|]. apply filter_In. split; [apply H2; assumption|exact Ha]. }
    assert (Vold : forall i, i < n -> alive g i = true -> is_data (kind_at g i) -> val g' i = sv i) by (intros i Hi Ha Hd; apply V1, Hs'; auto).
    assert (Vnew : forall i, n <= i -> val g' i = val g i) by (intros i Hi; apply V2; rewrite Hs'; lia).
    assert (Ld : length (defs w) = length (cells g)) by (apply (s_len _ _ _ _ _ _ RS)).
    assert (Lt : length (sound w) = length (cells g)) by (apply (s_len' _ _ _ _ _ _ RS)).
    assert (Lso : length so = n) by (apply (s_len' _ _ _ _ _ _ So)).
    destruct (still_sound_spec (skipn n (defs w)) so n (skipn n (sound w))) as [rest [Et [Er Hr]]]; [rewrite !skipn_length; lia|]. rewrite Et. rewrite skipn_length in Er.
    assert (T1 : forall i, i < n -> nth i (so ++ rest) false = nth i so false) by (intros i Hi; apply app_nth1; lia).
    assert (T2 : forall i, n <= i -> nth i (so ++ rest) false = true -> nth i (sound w) false = true /\
      forall f args a, nth_error (defs w) i = Some (Computed f args) -> In a args -> n <= a /\ nth a (so ++ rest) false = true).
    { intros i Hi Ht. rewrite app_nth2 in Ht by lia. rewrite Lso in Ht. destruct (Hr _ Ht) as [Q1 Q2].
      split.
      - rewrite <- Q1. symmetry. rewrite <- (firstn_skipn n (sound w)) at 2. rewrite app_nth2; rewrite firstn_length_le by lia; [reflexivity|lia].
      - intros f args a Ed. apply (Q2 f). rewrite <- Ed. rewrite <- (firstn_skipn n (defs w)) at 2. rewrite nth_error_app2; rewrite firstn_length_le by lia; [reflexivity|lia]. }
    unfold restore. fold n.
    assert (D1 : forall i, i < n -> nth_error (old ++ skipn n (defs w)) i = nth_error old i) by (intros i Hi; apply nth_error_app1; exact Hi).
    assert (D2 : forall i, n <= i -> nth_error (old ++ skipn n (defs w)) i = nth_error (defs w) i).
    { intros i Hi. rewrite nth_error_app2 by exact Hi. rewrite <- (firstn_skipn n (defs w)) at 2. rewrite nth_error_app2; rewrite firstn_length_le by lia; [reflexivity|lia]. }
    assert (M2 : forall i, n <= i -> alive g i = true -> nth i (so ++ rest) false = true -> meaning (old ++ skipn n (defs w)) i = meaning (defs w) i).
    { induction i as [i IH] using lt_wf_ind. intros Hi Ha Ht. assert (Hil := alive_lt _ _ Ha). destruct (T2 i Hi Ht) as [_ Targ].
      assert (C : forall f args, kargs (kind_at g i) = args -> nth_error (defs w) i = Some (Computed f args) -> meaning (old ++ skipn n (defs w)) i = meaning (defs w) i).
      { intros f args Ek Ed. assert (Hlt : forall a, In a args -> a < i) by (intros a H; apply (l_args _ RL); unfold args_of; rewrite Ek; exact H).
        rewrite (meaning_computed _ i f args) by (rewrite ?D2; assumption). rewrite (meaning_computed (defs w) i f args) by assumption. f_equal. f_equal. apply map_ext_in.
        intros a Hin. destruct (Targ f args a Ed Hin) as [Q1 Q2]. apply IH; auto. apply (l_alive _ RL i); [exact Ha|]. unfold args_of. rewrite Ek. exact Hin. }
      assert (Q := s_some _ _ _ _ _ _ RS i Hil). destruct (kind_at g i) as [[|f a|f a]|] eqn:Ek; [| | |congruence].
      - assert (Ed := s_root _ _ _ _ _ _ RS i Hil Ha Ek). rewrite (meaning_given _ i (option_map snd (val g i))) by (rewrite D2; assumption). symmetry. apply meaning_given. exact Ed.
      - apply (C f a); [reflexivity|]. apply (s_node _ _ _ _ _ _ RS); assumption.
      - apply (C f a); [reflexivity|]. apply (s_path _ _ _ _ _ _ RS); assumption. }
    assert (A1 : forall a, a < n -> alive g a = true -> avail (kind_at g) sv a -> avail (kind_at g') (val g') a).
    { intros a Ha Hal A. apply avail_kind with (kind_at g); [intros; apply (sh_kind _ _ Sh)|].
      assert (P : a < n /\ alive g a = true) by auto. clear Ha Hal. revert P. induction A as [i E H|i f b E H|i f b E H IH]; intros [Hi Hal].
      - apply av_root; [exact E|]. rewrite Vold; auto. rewrite E. exact I.
      - eapply av_node; [exact E|]. rewrite Vold; auto. rewrite E. exact I.
      - eapply av_path; [exact E|]. intros c Hc. apply IH; [exact Hc|]. assert (Hin : In c (args_of g i)) by (unfold args_of; rewrite E; exact Hc).
        assert (c < i) by (apply (l_args _ RL); exact Hin). split; [lia|]. apply (l_alive _ RL i); assumption. }
    assert (A2 : forall a, n <= a -> alive g a = true -> nth a (so ++ rest) false = true -> avail (kind_at g) (val g) a -> avail (kind_at g') (val g') a).
    { intros a Ha Hal Ht A. apply avail_kind with (kind_at g); [intros; apply (sh_kind _ _ Sh)|].
      apply avail_mono with (val g) (fun j => n <= j /\ alive g j = true /\ nth j (so ++ rest) false = true); auto.
      - intros j b [Hj [Hlj Htj]] Hb. destruct (T2 j Hj Htj) as [_ Targ]. assert (Hjl := alive_lt _ _ Hlj). unfold kargs in Hb.
        destruct (kind_at g j) as [[|f args|f args]|] eqn:Ek; try destruct Hb.
        + destruct (Targ f args b (s_node _ _ _ _ _ _ RS j f args Hjl Hlj Ek) Hb) as [Q1 Q2]. split; [exact Q1|]. split; [|exact Q2]. apply (l_alive _ RL j); [exact Hlj|]. unfold args_of. rewrite Ek. exact Hb.
        + destruct (Targ f args b (s_path _ _ _ _ _ _ RS j f args Hjl Hlj Ek) Hb) as [Q1 Q2]. split; [exact Q1|]. split; [|exact Q2]. apply (l_alive _ RL j); [exact Hlj|]. unfold args_of. rewrite Ek. exact Hb.
      - intros j [Hj _] Hv. rewrite Vnew by exact Hj. exact Hv. }
    assert (T : forall i, {i < n} + {n <= i}) by (intros i; destruct (lt_dec i n); [left|right]; lia).
    constructor; cbn [defs handles sound saved].
    - apply links_shape with g; assumption.
    - unfold sem. rewrite (sh_len _ _ Sh). constructor.
      + rewrite app_length, skipn_length. fold n. lia.
      + rewrite app_length. lia.
      + intros i Hi. rewrite (sh_alive _ _ Sh), (sh_kind _ _ Sh). intros Ha Ek. destruct (T i) as [Hn|Hn].
        * rewrite D1 by exact Hn. rewrite Vold by (rewrite ?Ek; cbn; auto). apply (s_root _ _ _ _ _ _ So); assumption.
        * rewrite D2, Vnew by exact Hn. apply (s_root _ _ _ _ _ _ RS); assumption.
      + intros i f a Hi. rewrite (sh_alive _ _ Sh), (sh_kind _ _ Sh). intros Ha Ek. destruct (T i) as [Hn|Hn].
        * rewrite D1 by exact Hn. apply (s_node _ _ _ _ _ _ So); assumption.
        * rewrite D2 by exact Hn. apply (s_node _ _ _ _ _ _ RS); assumption.
      + intros i f a Hi. rewrite (sh_alive _ _ Sh), (sh_kind _ _ Sh). intros Ha Ek. destruct (T i) as [Hn|Hn].
        * rewrite D1 by exact Hn. apply (s_path _ _ _ _ _ _ So); assumption.
        * rewrite D2 by exact Hn. apply (s_path _ _ _ _ _ _ RS); assumption.
      + intros i f a Hi. rewrite (sh_alive _ _ Sh), (sh_kind _ _ Sh). intros Ha Ek. rewrite V2; [apply (s_empty _ _ _ _ _ _ RS i f a); assumption|]. rewrite Hs', Ek. cbn. tauto.
      + intros i Hi. rewrite (sh_kind _ _ Sh). apply (s_some _ _ _ _ _ _ RS). exact Hi.
      + intros i a Hi. rewrite (sh_alive _ _ Sh), (sh_kind _ _ Sh). intros Ha Ht Hin. assert (Hai : a < i) by (apply (l_args _ RL); exact Hin). destruct (T i) as [Hn|Hn].
        * rewrite T1 in * by lia. apply (s_up _ _ _ _ _ _ So i); assumption.
        * destruct (T2 i Hn Ht) as [_ Targ]. unfold kargs in Hin. destruct (kind_at g i) as [[|f args|f args]|] eqn:Ek; try destruct Hin.
          -- apply (Targ f args); [apply (s_node _ _ _ _ _ _ RS); assumption|exact Hin].
          -- apply (Targ f args); [apply (s_path _ _ _ _ _ _ RS); assumption|exact Hin].
      + intros i f args st v Hi. rewrite (sh_alive _ _ Sh), (sh_kind _ _ Sh). intros Ha Ht Ek Ev.
        assert (Harg : forall a, In a args -> a < i /\ alive g a = true).
        { intros a Hin. assert (Q : In a (args_of g i)) by (unfold args_of; rewrite Ek; exact Hin). split; [apply (l_args _ RL); exact Q|apply (l_alive _ RL i); assumption]. }
        destruct (T i) as [Hn|Hn].
        * rewrite T1 in Ht by exact Hn. rewrite Vold in Ev by (rewrite ?Ek; cbn; auto). destruct (s_val _ _ _ _ _ _ So i f args st v Hn Ha Ht Ek Ev) as [M A].
          split; [rewrite meaning_app by exact Hn; exact M|]. intros a Hin. destruct (Harg a Hin). apply A1; auto; lia.
        * rewrite Vnew in Ev by exact Hn. destruct (T2 i Hn Ht) as [Hts Targ]. destruct (s_val _ _ _ _ _ _ RS i f args st v Hi Ha Hts Ek Ev) as [M A].
          split; [rewrite M2 by assumption; exact M|]. intros a Hin. destruct (Harg a Hin). destruct (Targ f args a (s_node _ _ _ _ _ _ RS i f args Hi Ha Ek) Hin). apply A2; auto.
    - rewrite (sh_len _ _ Sh). exact Rlen.
    - intros i. rewrite (sh_held _ _ Sh). apply Rh.
    - intros i. rewrite (sh_held _ _ Sh), (sh_alive _ _ Sh). apply Rhe.
    - intros i. rewrite (sh_alive _ _ Sh), (sh_kind _ _ Sh), (sh_nodes _ _ Sh). apply Rn.
    - intros i. rewrite (sh_kind _ _ Sh), (sh_nodes _ _ Sh). apply Rd.
    - apply snaps_shape with g; [exact Sh|]. assert (Ok' : snap_ok g s' (old, so)).
      { exists sv. split; [exact So|]. split; [exact Hlen|]. split.
        - intros i x Hin. apply filter_In in Hin. apply H1. apply Hin.
        - intros i Hi Ha Hd. apply filter_In. split; [apply H2; assumption|exact Ha]. }
      clear - Rs Eo Es Ok'. revert k Eo Es. induction Rs as [|a b l1 l2 H F IH]; intros [|k] Eo Es; try discriminate; cbn in *.
      + injection Eo as ->. constructor; assumption.
      + constructor; [exact H|]. apply IH; assumption.
  Qed.

  (** ** All histories *)
  Lemma step_spec : forall o g ss w out w', rel g ss w -> expect o w = Some (out, w') ->
    exists g' ss', step o (mkMachine g ss) = Ok (out, mkMachine g' ss') /\ rel g' ss' w'.
  Proof.
    intros o g ss w out w' R E. destruct o as [v|f args|f args|i v|i|i|i|i| |k]; cbn [expect] in E; cbn [step graph_of snapshots].
    - injection E as <- <-. assert (R1 := rel_new g ss w KRoot R). cbn in R1. specialize (R1 ltac:(intros a [])).
      unfold new_root. destruct v as [v|].
      + set (g1 := new_computed KRoot [] g) in R1. change (add_cell KRoot g) with g1.
        assert (Ec : cell_at g1 (length (cells g)) = Some (mkCell KRoot None [] 1 true)) by (unfold cell_at; cbn; rewrite nth_error_app2, Nat.sub_diag by lia; reflexivity).
        destruct (set_root g1 ss _ (length (cells g)) v R1) as [g2 [E2 R2]].
        { unfold alive. rewrite Ec. reflexivity. }
        { unfold kind_at. rewrite Ec. reflexivity. }
        rewrite E2. cbn [bind]. exists g2, ss. split; [reflexivity|]. cbn in R2.
        replace (update (length (cells g)) (fun _ => Given (Some v)) (defs w ++ [Given None])) with (defs w ++ [Given (Some v)]) in R2; [exact R2|].
        rewrite <- (s_len _ _ _ _ _ _ (r_sem _ _ _ R)). clear. induction (defs w) as [|d ds IH]; cbn; [reflexivity|]. rewrite <- IH. reflexivity.
      + eexists _, ss. split; [reflexivity|exact R1].
    - destruct (forallb (holds w) args) eqn:Eh; [|discriminate]. injection E as <- <-.
      assert (Eh' : forallb (held g) args = true) by (apply forallb_forall; intros a Hin; rewrite (held_holds g ss w a R); rewrite forallb_forall in Eh; apply Eh; exact Hin).
      rewrite Eh'. eexists _, ss. split; [reflexivity|]. apply (rel_new g ss w (KNode f args) R). intros a Hin. apply (held_alive g ss w a R). rewrite forallb_forall in Eh'. apply Eh'. exact Hin.
    - destruct (forallb (holds w) args) eqn:Eh; [|discriminate]. injection E as <- <-.
      assert (Eh' : forallb (held g) args = true) by (apply forallb_forall; intros a Hin; rewrite (held_holds g ss w a R); rewrite forallb_forall in Eh; apply Eh; exact Hin).
      rewrite Eh'. eexists _, ss. split; [reflexivity|]. apply (rel_new g ss w (KPath f args) R). intros a Hin. apply (held_alive g ss w a R). rewrite forallb_forall in Eh'. apply Eh'. exact Hin.
    - destruct (holds w i) eqn:Eh; [|discriminate]. destruct (is_given w i) eqn:Eg; [|discriminate]. injection E as <- <-. rewrite <- (held_holds g ss w i R) in Eh.
      assert (Ha := held_alive g ss w i R Eh). assert (Ek := root_given g ss w i R Ha Eg). rewrite Eh, (kind_is_root g i Ek). cbn.
      destruct (set_root g ss w i v R Ha Ek) as [g' [E' R']]. rewrite E'. exists g', ss. split; [reflexivity|exact R'].
    - destruct (holds w i) eqn:Eh; [|discriminate]. destruct (is_given w i) eqn:Eg; [|discriminate]. injection E as <- <-. rewrite <- (held_holds g ss w i R) in Eh.
      assert (Ha := held_alive g ss w i R Eh). assert (Ek := root_given g ss w i R Ha Eg). rewrite Eh, (kind_is_root g i Ek). cbn [andb].
      destruct (unset_root g ss w i R Ha Ek) as [g' [E' R']]. rewrite E'. exists g', ss. split; [reflexivity|exact R'].
    - destruct (holds w i) eqn:Eh; [|discriminate]. destruct (nth i (sound w) false) eqn:Et; [|discriminate]. cbn in E. destruct (meaning (defs w) i) as [v|] eqn:Em; [|discriminate]. injection E as <- <-.
      rewrite <- (held_holds g ss w i R) in Eh. destruct (read_cell g ss w i v R (held_alive g ss w i R Eh) Et Em) as [a [g' [E' [Va R']]]].
      rewrite Eh, E'. cbn [bind fst snd]. rewrite Va. exists g', ss. split; [reflexivity|exact R'].
    - destruct (holds w i) eqn:Eh; [|discriminate]. injection E as <- <-. rewrite <- (held_holds g ss w i R) in Eh. rewrite Eh. eexists _, ss. split; [reflexivity|].
      apply (rel_handle g ss w i (fun n => n + 1) R). apply (held_alive g ss w i R Eh).
    - destruct (holds w i) eqn:Eh; [|discriminate]. injection E as <- <-. rewrite <- (held_holds g ss w i R) in Eh. rewrite Eh. eexists _, ss. split; [reflexivity|].
      apply rel_collect. apply (rel_handle g ss w i (fun n => n - 1) R). apply (held_alive g ss w i R Eh).
    - injection E as <- <-. eexists _, _. split; [reflexivity|]. apply rel_dump. exact R.
    - destruct (nth_error (saved w) k) as [[old so]|] eqn:Ek; [|discriminate]. injection E as <- <-.
      assert (Es : exists s, nth_error ss k = Some s).
      { assert (F := r_snap _ _ _ R). clear - F Ek. revert k Ek. induction F as [|a b l1 l2 H F IH]; intros [|k] Ek; try discriminate; cbn in *; eauto. }
      destruct Es as [s Es]. rewrite Es. cbn [get_or_ub bind]. eexists _, _. split; [reflexivity|]. apply rel_load; assumption.
  Qed.

  Lemma rel_start : rel (mkGraph [] 0 []) [] no_world.
  Proof.
    assert (C : forall j, cell_at (mkGraph (V := V) [] 0 []) j = None) by (intros [|j]; reflexivity).
    constructor; cbn; auto; try (intros i; unfold alive, held_n; rewrite ?C; try discriminate; congruence).
    - constructor; intros j a; unfold args_of, down_of, alive, kind_at; rewrite ?C; cbn; intros; try contradiction; discriminate.
    - constructor; cbn; auto; intros; lia.
    - intros i. unfold held_n. rewrite C. destruct i; reflexivity.
    - intros i [].
  Qed.

  Theorem run_spec : forall (ops : list (op V)) outs w, expected ops no_world = Some (outs, w) -> exists m, run ops = Ok (outs, m).
  Proof.
    assert (Q : forall ops g ss w acc outs w', rel g ss w -> expected ops w = Some (outs, w') ->
      exists m, foldM (fun st o => bind (step o (snd st)) (fun r => Ok (fst st ++ fst r, snd r))) ops (acc, mkMachine g ss) = Ok (acc ++ outs, m)).
    { induction ops as [|o ops IH]; intros g ss w acc outs w' R E; cbn [expected] in E.
      - injection E as <- <-. eexists. cbn. rewrite app_nil_r. reflexivity.
      - destruct (expect o w) as [[out w1]|] eqn:E1; [|discriminate]. destruct (expected ops w1) as [[outs1 w2]|] eqn:E2; [|discriminate]. injection E as <- <-.
        destruct (step_spec o g ss w out w1 R E1) as [g' [ss' [Es R']]]. cbn [foldM snd fst]. rewrite Es. cbn [bind fst snd].
        destruct (IH g' ss' w1 (acc ++ out) outs1 w2 R' E2) as [m Em]. exists m. rewrite app_assoc. exact Em. }
    intros ops outs w E. apply (Q ops _ [] no_world [] outs w rel_start E).
  Qed.

  (** ** Corollaries *)
  Definition is_load (o : op V) : bool := match o with Load _ => true | _ => false end.
  Lemma expected_app : forall a b (w : world V) o1 w1 o2 w2, expected a w = Some (o1, w1) -> expected b w1 = Some (o2, w2) -> expected (a ++ b) w = Some (o1 ++ o2, w2).
  Proof.
    induction a as [|o a IH]; intros b w o1 w1 o2 w2 H1 H2; cbn [expected app] in *.
    - injection H1 as <- <-. exact H2.
    - destruct (expect o w) as [[out w']|]; [|discriminate]. destruct (expected a w') as [[outs w'']|] eqn:E; [|discriminate]. injection H1 as <- <-.
      rewrite (IH b w' outs w'' o2 w2 E H2). rewrite app_assoc. reflexivity.
  Qed.
  Lemma expected_split : forall a b (w : world V) o2 w2, expected (a ++ b) w = Some (o2, w2) ->
    exists oa w1 ob, expected a w = Some (oa, w1) /\ expected b w1 = Some (ob, w2) /\ o2 = oa ++ ob.
  Proof.
    induction a as [|o a IH]; intros b w o2 w2 H; cbn [expected app] in *.
    - exists [], w, o2. auto.
    - destruct (expect o w) as [[out w']|]; [|discriminate]. destruct (expected (a ++ b) w') as [[outs w'']|] eqn:E; [|discriminate]. injection H as <- <-.
      destruct (IH b w' outs w'' E) as [oa [w1 [ob [E1 [E2 ->]]]]]. rewrite E1. exists (out ++ oa), w1, ob. split; [reflexivity|]. split; [exact E2|apply app_assoc].
  Qed.
  Lemma all_sound : forall ops (w : world V) o w', forallb (fun x => negb (is_load x)) ops = true -> expected ops w = Some (o, w') ->
    length (sound w) = length (defs w) -> (forall i, nth i (handles w) 0 <> 0 -> i < length (defs w)) -> length (handles w) = length (defs w) -> (forall i, i < length (defs w) -> nth i (sound w) false = true) ->
    forall i, i < length (defs w') -> nth i (sound w') false = true.
  Proof.
    induction ops as [|x ops IH]; intros w o w' Hn E Hl Hh Hlh Hs; cbn [expected forallb] in *.
    - injection E as <- <-. exact Hs.
    - apply andb_prop in Hn. destruct Hn as [Hx Hn]. destruct (expect x w) as [[out w1]|] eqn:Ex; [|discriminate]. destruct (expected ops w1) as [[outs w2]|] eqn:E'; [|discriminate]. injection E as <- <-.
      assert (Hnth : forall j, nth j (handles w) 0 <> 0 -> j < length (handles w)) by (intros j Hj; destruct (Nat.lt_ge_cases j (length (handles w))); [assumption|]; rewrite nth_overflow in Hj by assumption; congruence).
      assert (Hd : forall hs : list nat, length hs = length (defs w) -> forall i, nth i hs 0 <> 0 -> i < length (defs w)).
      { intros hs Hhs j Hj. destruct (Nat.lt_ge_cases j (length hs)); [lia|]. rewrite nth_overflow in Hj by assumption. congruence. }
      assert (New : forall d b, b = true -> forall i, i < length (defs w ++ [d : def V]) -> nth i (sound w ++ [b]) false = true).
      { intros d b -> j Hj. rewrite app_length in Hj. cbn in Hj. destruct (Nat.lt_ge_cases j (length (defs w))); [rewrite app_nth1 by lia; apply Hs; assumption|].
        rewrite app_nth2 by lia. replace (j - length (sound w)) with 0 by lia. reflexivity. }
      assert (Nh : forall (d : def V) i, nth i (handles w ++ [1]) 0 <> 0 -> i < length (defs w ++ [d])).
      { intros d j Hj. rewrite app_length. cbn. destruct (Nat.lt_ge_cases j (length (handles w ++ [1]))) as [H|H]; [rewrite app_length in H; cbn in H; lia|]. rewrite nth_overflow in Hj by exact H. congruence. }
      destruct x as [v|f args|f args|i v|i|i|i|i| |k]; cbn [expect] in Ex; try discriminate Hx.
      + injection Ex as <- <-. apply (IH _ _ _ Hn E'); cbn; [rewrite !app_length; cbn; lia|apply Nh|rewrite !app_length; cbn; lia|apply New; reflexivity].
      + destruct (forallb (holds w) args) eqn:Ea; [|discriminate]. injection Ex as <- <-. apply (IH _ _ _ Hn E'); cbn; [rewrite !app_length; cbn; lia|apply Nh|rewrite !app_length; cbn; lia|].
        apply New. apply forallb_forall. intros a Hin. apply Hs, Hh. rewrite forallb_forall in Ea. specialize (Ea a Hin). unfold holds in Ea. apply negb_true_iff, Nat.eqb_neq in Ea. exact Ea.
      + destruct (forallb (holds w) args) eqn:Ea; [|discriminate]. injection Ex as <- <-. apply (IH _ _ _ Hn E'); cbn; [rewrite !app_length; cbn; lia|apply Nh|rewrite !app_length; cbn; lia|].
        apply New. apply forallb_forall. intros a Hin. apply Hs, Hh. rewrite forallb_forall in Ea. specialize (Ea a Hin). unfold holds in Ea. apply negb_true_iff, Nat.eqb_neq in Ea. exact Ea.
      + destruct (holds w i && is_given w i); [|discriminate]. injection Ex as <- <-. apply (IH _ _ _ Hn E'); cbn; rewrite ?length_update; auto.
      + destruct (holds w i && is_given w i); [|discriminate]. injection Ex as <- <-. apply (IH _ _ _ Hn E'); cbn; rewrite ?length_update; auto.
      + destruct (holds w i && nth i (sound w) false); [|discriminate]. destruct (meaning (defs w) i); [|discriminate]. injection Ex as <- <-. apply (IH _ _ _ Hn E'); auto.
      + destruct (holds w i); [|discriminate]. injection Ex as <- <-. apply (IH _ _ _ Hn E'); cbn; rewrite ?length_update; auto. apply Hd. rewrite length_update. exact Hlh.
      + destruct (holds w i); [|discriminate]. injection Ex as <- <-. apply (IH _ _ _ Hn E'); cbn; rewrite ?length_update; auto. apply Hd. rewrite length_update. exact Hlh.
      + injection Ex as <- <-. apply (IH _ _ _ Hn E'); auto.
  Qed.
  Lemma world_rel : forall (ops : list (op V)) outs w, expected ops no_world = Some (outs, w) -> exists g ss, rel g ss w.
  Proof.
    intros ops. assert (Q : forall ops g ss (w : world V) outs w', rel g ss w -> expected ops w = Some (outs, w') -> exists g' ss', rel g' ss' w').
    { induction ops0 as [|o l IH]; intros g ss w outs w' R E; cbn [expected] in E; [injection E as <- <-; eauto|].
      destruct (expect o w) as [[out w1]|] eqn:E1; [|discriminate]. destruct (expected l w1) as [[outs1 w2]|] eqn:E2; [|discriminate]. injection E as <- <-.
      destruct (step_spec o g ss w out w1 R E1) as [g' [ss' [_ R']]]. eapply IH; [exact R'|exact E2]. }
    intros outs w E. exact (Q ops _ _ _ _ _ rel_start E).
  Qed.
  Lemma holds_lt : forall g ss (w : world V) i, rel g ss w -> holds w i = true -> i < length (defs w).
  Proof.
    intros g ss w i R H. rewrite <- (held_holds g ss w i R) in H. apply (held_alive g ss w i R) in H. apply alive_lt in H. rewrite (s_len _ _ _ _ _ _ (r_sem _ _ _ R)). exact H.
  Qed.

  Theorem lazy_current : forall (ops : list (op V)) outs w i v, forallb (fun o => negb (is_load o)) ops = true -> expected ops no_world = Some (outs, w) ->
    holds w i = true -> meaning (defs w) i = Some v -> exists m, run (ops ++ [Read i]) = Ok (outs ++ [v], m).
  Proof.
    intros ops outs w i v Hn E Hh Hm. destruct (world_rel _ _ _ E) as [g [ss R]]. apply run_spec with w. apply expected_app with w; [exact E|]. cbn [expected expect].
    rewrite Hh, Hm. rewrite (all_sound ops no_world outs w Hn E); [reflexivity| | | | |apply (holds_lt g ss); assumption]; cbn; auto; try (intros j; destruct j; cbn; congruence); intros; lia.
  Qed.
  Lemma saved_grows : forall ops (w : world V) o w', expected ops w = Some (o, w') -> exists more, saved w' = saved w ++ more.
  Proof.
    induction ops as [|x ops IH]; intros w o w' E; cbn [expected] in E; [injection E as <- <-; exists []; symmetry; apply app_nil_r|].
    destruct (expect x w) as [[out w1]|] eqn:Ex; [|discriminate]. destruct (expected ops w1) as [[outs w2]|] eqn:E'; [|discriminate]. injection E as <- <-.
    destruct (IH _ _ _ E') as [more Em]. rewrite Em. assert (Q : exists m, saved w1 = saved w ++ m).
    { destruct x; cbn [expect] in Ex; repeat match type of Ex with context [if ?b then _ else _] => destruct b end; try discriminate;
        repeat match type of Ex with context [match ?b with Some _ => _ | None => _ end] => destruct b as [[]|] eqn:? end; try discriminate;
        try (destruct (meaning (defs w) i)); try discriminate; injection Ex as <- <-; cbn; try (exists []; symmetry; apply app_nil_r); eauto. }
    destruct Q as [m ->]. exists (m ++ more). rewrite app_assoc. reflexivity.
  Qed.
  Theorem lazy_restored : forall (h1 h2 : list (op V)) outs1 w1 outs2 w2 i v,
    forallb (fun o => negb (is_load o)) h1 = true -> expected h1 no_world = Some (outs1, w1) -> expected (h1 ++ Dump :: h2) no_world = Some (outs2, w2) ->
    i < length (defs w1) -> holds w2 i = true -> meaning (defs w1) i = Some v ->
    exists m, run ((h1 ++ Dump :: h2) ++ [Load (length (saved w1)); Read i]) = Ok (outs2 ++ [v], m).
  Proof.
    intros h1 h2 outs1 w1 outs2 w2 i v Hn E1 E2 Hi Hh Hm.
    assert (Hsnd : nth i (sound w1) false = true).
    { apply (all_sound h1 no_world outs1 w1 Hn E1); cbn; auto; try (intros j; destruct j; cbn; congruence); intros; lia. }
    assert (Es : nth_error (saved w2) (length (saved w1)) = Some (defs w1, sound w1)).
    { destruct (expected_split _ _ _ _ _ E2) as [oa [wa [ob [Ea [Eb _]]]]]. rewrite E1 in Ea. injection Ea as <- <-. cbn [expected expect] in Eb.
      destruct (expected h2 _) as [[o3 w3]|] eqn:E3; [|discriminate]. injection Eb as <- <-. destruct (saved_grows _ _ _ _ E3) as [more Em]. rewrite Em. cbn.
      rewrite <- app_assoc. rewrite nth_error_app2 by lia. rewrite Nat.sub_diag. reflexivity. }
    destruct (world_rel _ _ _ E1) as [g1 [ss1 R1]]. destruct (world_rel _ _ _ E2) as [g2 [ss2 R2]].
    assert (Hl1 : length (sound w1) = length (defs w1)) by (rewrite (s_len _ _ _ _ _ _ (r_sem _ _ _ R1)); apply (s_len' _ _ _ _ _ _ (r_sem _ _ _ R1))).
    assert (Hl2 : length (sound w2) = length (defs w2)) by (rewrite (s_len _ _ _ _ _ _ (r_sem _ _ _ R2)); apply (s_len' _ _ _ _ _ _ (r_sem _ _ _ R2))).
    destruct (still_sound_spec (skipn (length (defs w1)) (defs w2)) (sound w1) (length (defs w1)) (skipn (length (defs w1)) (sound w2))) as [rest [Et _]]; [rewrite !skipn_length; lia|].
    eapply run_spec. apply expected_app with w2; [exact E2|]. cbn [expected expect]. rewrite Es. unfold holds in *. cbn [handles defs sound]. rewrite Hh.
    rewrite Et, app_nth1 by lia. rewrite Hsnd. unfold restore. rewrite meaning_app by exact Hi. rewrite Hm. reflexivity.
  Qed.
End Facts.
