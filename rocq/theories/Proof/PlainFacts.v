(** Tensors without symmetry seen as functions of named indices. *)
From Coq Require Import String Ascii List Bool Arith Lia Sorted Permutation.
From Verif Require Import Base.Outcome Base.SMap Model.Symmetry Model.Edge Model.Core Model.EdgeOperator Model.Contract Model.Misc
  Spec.Blocks Spec.Fuse Spec.Relabel Spec.Contract Spec.Plain Proof.SymmetryFacts Proof.LoopFacts Proof.CoreFacts Proof.ElemFacts Proof.LegFacts Proof.SumFacts Proof.TransposeNames Proof.RenameFacts
  Proof.RegroupFacts Proof.ContractNames Proof.ContractPlain Proof.HotContract.
Import ListNotations.

(** ** which edges there are, with their dimensions *)
Definition slots := list (nat * option nat).
Definition slot (K : slots) (n : nat) : option nat := match mfind n K with Some o => o | None => None end.
Definition keys (K : slots) : list nat := map fst K.
Definition without (l : list nat) (K : slots) : slots := filter (fun p => negb (member (fst p) l)) K.
Definition within (l : list nat) (K : slots) : slots := filter (fun p => member (fst p) l) K.
Definition in_slots (K : slots) (at_ : list (nat * nat)) : Prop := forall n, index at_ n < size (slot K n) \/ slot K n = None.

Section Plain.
  Context {R : Type} {RR : Scalar R}.
  Notation entry := (unit * nat)%type.
  Implicit Types t r : tensor unit R.

  Record has (t : tensor unit R) (K : slots) : Prop := {
    h_wf : wf_tensor t;
    h_block : t_blocks t <> [];
    h_dim : forall n, dimension t n = slot K n }.

  Lemma Ns : @is_nosym unit _ = true. Proof. reflexivity. Qed.
  Lemma Nf : @is_fermi unit _ = false. Proof. reflexivity. Qed.

  Lemma neqb : forall a b : nat, a <> b -> eqb a b = false.
  Proof. intros a b H. now apply eqb_false. Qed.
  Lemma index_cons : forall n i at_ m, index ((n, i) :: at_) m = if Nat.eqb m n then i else index at_ m.
  Proof. intros. unfold index. cbn [mfind]. destruct (Nat.eqb_spec m n) as [->|H]; [now rewrite eqb_refl|]. now rewrite (neqb m n H). Qed.

  Lemma dimension_named : forall t n, wf_tensor t -> dimension t n <> None <-> In n (t_names t).
  Proof.
    intros t n W. unfold dimension. destruct (mfind n (legs_of t)) as [e|] eqn:F.
    - split; [intros _|discriminate]. apply mfind_In, in_combine_l in F. exact F.
    - split; [congruence|]. intro Hn. apply mfind_None in F. exfalso. apply F. unfold legs_of. now rewrite combine_map_fst by apply (wf_rank _ W).
  Qed.
  Lemma dimension_of : forall t n, wf_tensor t -> t_blocks t <> [] -> In n (t_names t) -> dimension t n = Some (dim_of t n) /\ emap (edge_named (legs_of t) n) = [(tt, dim_of t n)].
  Proof.
    intros t n W B Hn. assert (E := plain_leg Ns t W B n Hn). split; [|exact E].
    unfold dimension, dim_of, edge_named, legs_of. destruct (mfind n (combine (t_names t) (t_edges t))) as [e|] eqn:F; [reflexivity|].
    apply mfind_None in F. exfalso. apply F. now rewrite combine_map_fst by apply (wf_rank _ W).
  Qed.
  Lemma has_in : forall t K n, has t K -> In n (t_names t) <-> slot K n <> None.
  Proof. intros t K n [W B D]. rewrite <- D. symmetry. now apply dimension_named. Qed.
  Lemma has_size : forall t K n, has t K -> In n (t_names t) -> slot K n = Some (dim_of t n).
  Proof. intros t K n [W B D] Hn. rewrite <- D. now apply dimension_of. Qed.
  Lemma has_ext : forall t K K', has t K -> (forall n, slot K n = slot K' n) -> has t K'.
  Proof. intros t K K' [W B D] H. constructor; auto. intro n. now rewrite D. Qed.
  Lemma slot_keys : forall K n, slot K n <> None -> In n (keys K).
  Proof. intros K n H. unfold slot in H. destruct (mfind n K) eqn:F; [|congruence]. apply mfind_In in F. exact (in_map fst _ _ F). Qed.
  Lemma slot_app : forall K1 K2 n, slot (K1 ++ K2) n = match mfind n K1 with Some o => o | None => slot K2 n end.
  Proof. intros. unfold slot. rewrite mfind_app. now destruct (mfind n K1). Qed.
  Lemma find_filter : forall (f : nat -> bool) (K : slots) n, mfind n (filter (fun p => f (fst p)) K) = if f n then mfind n K else None.
  Proof.
    intros f K n. induction K as [|[m o] K IH]; cbn [filter mfind fst]; [now destruct (f n)|]. destruct (Nat.eq_dec n m) as [->|H].
    - rewrite eqb_refl. destruct (f m); [cbn [mfind]; now rewrite eqb_refl|exact IH].
    - rewrite (neqb n m H). destruct (f m); [cbn [mfind]; now rewrite (neqb n m H)|exact IH].
  Qed.
  Lemma slot_without : forall l K n, slot (without l K) n = if member n l then None else slot K n.
  Proof. intros. unfold slot, without. rewrite (find_filter (fun n => negb (member n l))). now destruct (member n l). Qed.
  Lemma slot_within : forall l K n, slot (within l K) n = if member n l then slot K n else None.
  Proof. intros. unfold slot, within. rewrite (find_filter (fun n => member n l)). now destruct (member n l). Qed.

  (** ** elements *)
  Lemma value_ext : forall t K a b, has t K -> (forall n, slot K n <> None -> index a n = index b n) -> value t a = value t b.
  Proof.
    intros t K a b H Hab. unfold value. f_equal. apply map_ext_in. intros n Hn. now rewrite (Hab n) by (now apply (has_in t K n H)).
  Qed.
  Lemma find_pos : forall (f : nat -> entry) l n, In n l -> mfind n (map (fun n => (n, f n)) l) = Some (f n).
  Proof.
    intros f l n. induction l as [|m l IH]; [intros []|]. intros H. cbn [map mfind]. destruct (Nat.eq_dec n m) as [->|Hm]; [now rewrite eqb_refl|].
    rewrite (neqb n m Hm). apply IH. destruct H; congruence.
  Qed.
  Lemma element_value : forall t (pos : position) a, (forall n, In n (t_names t) -> mfind n pos = Some (tt, index a n)) -> element t pos = value t a.
  Proof.
    intros t pos a H. unfold value, element. rewrite (const_at_ext t pos (map (fun n => (n, (tt, index a n))) (t_names t))); [reflexivity|].
    intros n Hn. rewrite (H n Hn). symmetry. now apply (find_pos (fun n => (tt, index a n))).
  Qed.
  Lemma in_range_ext_plain : forall t a K, has t K -> in_slots K a -> in_range (maps_of (c_edges (t_core t))) (map (fun i => (tt, i)) (map (index a) (t_names t))).
  Proof.
    intros t a K H Ha. change (c_edges (t_core t)) with (t_edges t). rewrite (plain_maps Ns t (h_wf _ _ H) (h_block _ _ H)). apply (@plain_point unit _).
    exists (map (index a) (t_names t)). split; [reflexivity|].
    assert (G : forall l, incl l (t_names t) -> Forall2 lt (map (index a) l) (map (dim_of t) l)).
    { induction l as [|n l IH]; intro Hl; cbn [map]; constructor.
      - assert (Hn : In n (t_names t)) by (apply Hl; now left). assert (Q := has_size t K n H Hn). destruct (Ha n) as [Hi|Hi]; [|congruence]. rewrite Q in Hi. exact Hi.
      - apply IH. intros x Hx. apply Hl. now right. }
    apply G. now intro.
  Qed.
  Lemma value_read : forall t K a, has t K -> in_slots K a -> const_at t (map (fun n => (n, (tt, index a n))) (t_names t)) = Ok (value t a).
  Proof.
    intros t K a H Ha. destruct (plain_block Ns t (h_wf _ _ H) (h_block _ _ H)) as [key [data Eb]].
    destruct (plain_data Ns t (h_wf _ _ H) (h_block _ _ H) key data Eb) as [_ Hd].
    destruct (Hd (map (fun n => (n, (tt, index a n))) (t_names t)) (map (index a) (t_names t))) as [v [_ [Hv _]]].
    - unfold assigns. rewrite !map_map. apply map_ext_in. intros n Hn. now apply (find_pos (fun n => (tt, index a n))).
    - assert (G : forall l, incl l (t_names t) -> Forall2 lt (map (index a) l) (map (dim_of t) l)).
      { induction l as [|n l IH]; intro Hl; cbn [map]; constructor.
        - assert (Hn : In n (t_names t)) by (apply Hl; now left). assert (Q := has_size t K n H Hn). destruct (Ha n) as [Hi|Hi]; [|congruence]. rewrite Q in Hi. exact Hi.
        - apply IH. intros x Hx. apply Hl. now right. }
      apply G. now intro.
    - unfold value, element. now rewrite Hv.
  Qed.

  (** ** renaming *)
  Lemma rename_has : forall t K dict, has t K -> NoDup (map (rename_one dict) (keys K)) ->
    has (edge_rename t dict) (map (fun p => (rename_one dict (fst p), snd p)) K).
  Proof.
    intros t K dict H Hn.
    assert (Inj : forall x y, In x (keys K) -> In y (keys K) -> rename_one dict x = rename_one dict y -> x = y).
    { clear - Hn. induction (keys K) as [|z l IH]; intros x y Hx Hy Q; [destruct Hx|]. cbn [map] in Hn. apply NoDup_cons_iff in Hn as [Ha Hb].
      destruct Hx as [->|Hx]; destruct Hy as [->|Hy]; auto.
      - exfalso. apply Ha. rewrite Q. now apply in_map.
      - exfalso. apply Ha. rewrite <- Q. now apply in_map. }
    assert (Inj' : forall x y, In x (t_names t) -> In y (t_names t) -> rename_one dict x = rename_one dict y -> x = y).
    { intros x y Hx Hy. apply Inj; apply slot_keys; now apply (has_in t K). }
    constructor.
    - apply edge_rename_wf; [apply (h_wf _ _ H)|exact Inj'].
    - apply (h_block _ _ H).
    - intro n. assert (W := h_wf _ _ H).
      assert (F : forall l es, length l = length es -> (forall x y, In x l -> In y l -> rename_one dict x = rename_one dict y -> x = y) ->
                (forall m, In m l -> mfind (rename_one dict m) (combine (map (rename_one dict) l) es) = mfind m (combine l es : list (nat * edge unit)))).
      { induction l as [|z l IH]; intros [|e es] Hl Hi m Hm; cbn in Hl; try discriminate; [destruct Hm|]. cbn [map combine mfind].
        destruct (Nat.eq_dec m z) as [->|Hz]; [now rewrite !eqb_refl|]. rewrite (neqb m z Hz). rewrite neqb.
        - apply IH; [lia| |destruct Hm; congruence]. intros; apply Hi; [now right|now right|assumption].
        - intro Q. apply Hz. apply Hi; auto. now left. }
      assert (G : forall m, slot K m <> None -> dimension (edge_rename t dict) (rename_one dict m) = dimension t m).
      { intros m Hm. unfold dimension, legs_of, edge_rename. cbn [t_names t_core]. change (t_edges (mkTensor (map (rename_one dict) (t_names t)) (t_core t))) with (t_edges t).
        rewrite F; [reflexivity|apply (wf_rank _ W)|exact Inj'|now apply (has_in t K m H)]. }
      assert (G' : forall m, slot K m <> None -> slot (map (fun p => (rename_one dict (fst p), snd p)) K) (rename_one dict m) = slot K m).
      { intros m Hm. assert (Hk := slot_keys K m Hm). clear - Inj Hk. unfold slot. replace (mfind (rename_one dict m) (map (fun p => (rename_one dict (fst p), snd p)) K)) with (mfind m K); [reflexivity|].
        unfold keys in *. induction K as [|[z o] K IH]; [destruct Hk|]. cbn [map mfind fst snd]. destruct (Nat.eq_dec m z) as [->|Hz]; [now rewrite !eqb_refl|].
        rewrite (neqb m z Hz). rewrite neqb.
        - apply IH; [|destruct Hk; cbn in *; congruence]. intros x y Hx Hy. apply Inj; now right.
        - intro Q. apply Hz. apply Inj; auto. now left. }
      destruct (dimension (edge_rename t dict) n) as [d|] eqn:D.
      + assert (Hin : In n (t_names (edge_rename t dict))).
        { apply dimension_named; [apply edge_rename_wf; [exact W|exact Inj']|]. now rewrite D. }
        unfold edge_rename in Hin. cbn [t_names] in Hin. apply in_map_iff in Hin as [m [<- Hm]].
        apply (has_in t K m H) in Hm. rewrite G' by exact Hm. rewrite <- (h_dim _ _ H m), <- G by exact Hm. now rewrite D.
      + destruct (slot (map (fun p => (rename_one dict (fst p), snd p)) K) n) as [d|] eqn:S; [|reflexivity]. exfalso.
        assert (Hf : exists m, rename_one dict m = n /\ slot K m = Some d).
        { unfold slot in S. destruct (mfind n (map (fun p => (rename_one dict (fst p), snd p)) K)) as [o|] eqn:M; [|discriminate]. subst o.
          apply mfind_In in M. apply in_map_iff in M as [[m o] [Q Hm]]. cbn [fst snd] in Q. injection Q as Q1 Q2. subst o. exists m. split; [exact Q1|].
          unfold slot. rewrite (In_mfind_nodup K m (Some d)); [reflexivity| |exact Hm]. now apply NoDup_map_inv in Hn. }
        destruct Hf as [m [<- Hm]]. rewrite G in D by congruence. rewrite (h_dim _ _ H m) in D. congruence.
  Qed.
  Lemma mapM_pair : forall (A B C : Type) (f : A -> res C) (g : B -> res C) l l', Forall2 (fun x y => f x = g y) l l' -> mapM f l = mapM g l'.
  Proof. intros A B C f g l l' H. induction H as [|x y l l' Hx _ IH]; [reflexivity|]. cbn [mapM]. now rewrite Hx, IH. Qed.
  Lemma Forall2_weaken : forall (A B : Type) (P Q : A -> B -> Prop) l l', (forall x y, P x y -> Q x y) -> Forall2 P l l' -> Forall2 Q l l'.
  Proof. intros A B P Q l l' H F. induction F; constructor; auto. Qed.
  Lemma rename_value : forall t K dict a b, has t K -> NoDup (map (rename_one dict) (keys K)) ->
    (forall n, slot K n <> None -> index b n = index a (rename_one dict n)) -> value (edge_rename t dict) a = value t b.
  Proof.
    intros t K dict a b H Hn Hab. unfold value, element, edge_rename. cbn [t_names].
    assert (Inj : forall x y, In x (t_names t) -> In y (t_names t) -> rename_one dict x = rename_one dict y -> x = y).
    { assert (Inj : forall x y, In x (keys K) -> In y (keys K) -> rename_one dict x = rename_one dict y -> x = y).
      { clear - Hn. induction (keys K) as [|z l IH]; intros x y Hx Hy Q; [destruct Hx|]. cbn [map] in Hn. apply NoDup_cons_iff in Hn as [Ha Hb].
        destruct Hx as [->|Hx]; destruct Hy as [->|Hy]; auto.
        - exfalso. apply Ha. rewrite Q. now apply in_map.
        - exfalso. apply Ha. rewrite <- Q. now apply in_map. }
      intros x y Hx Hy. apply Inj; apply slot_keys; now apply (has_in t K). }
    assert (Q : const_at (mkTensor (map (rename_one dict) (t_names t)) (t_core t)) (map (fun n => (n, (tt, index a n))) (map (rename_one dict) (t_names t))) = const_at t (map (fun n => (n, (tt, index b n))) (t_names t))); [|now rewrite Q].
    unfold const_at. cbn [t_names t_core].
    assert (P : get_block_and_offset (map (fun n => (n, (tt, index a n))) (map (rename_one dict) (t_names t))) (map (rename_one dict) (t_names t)) (t_core t) = get_block_and_offset (map (fun n => (n, (tt, index b n))) (t_names t)) (t_names t) (t_core t)); [|now rewrite P].
    unfold get_block_and_offset. match goal with |- bind ?x _ = bind ?y _ => assert (P : x = y); [|now rewrite P] end.
    apply mapM_pair. generalize (c_edges (t_core t)).
    assert (P : forall l es, incl l (t_names t) -> Forall2 (fun x y : nat * edge unit => exists n, In n (t_names t) /\ fst x = rename_one dict n /\ fst y = n /\ snd x = snd y) (combine (map (rename_one dict) l) es) (combine l es)).
    { induction l as [|n l IH]; intros [|e es] Hl; cbn [map combine]; constructor; [exists n; repeat split; apply Hl; now left|]. apply IH. intros x Hx. apply Hl. now right. }
    intro es. eapply Forall2_weaken; [|exact (P (t_names t) es (incl_refl _))]. intros [x e] [y e'] [n [I [X [Y Z]]]]. cbn [fst snd] in *. subst.
    rewrite (find_pos (fun n => (tt, index a n)) _ (rename_one dict n)) by (now apply in_map).
    rewrite (find_pos (fun n => (tt, index b n)) _ n) by exact I. now rewrite <- (Hab n) by (now apply (has_in t K n H)).
  Qed.

  (** ** sums *)
  Hypothesis EA : exact_arithmetic R.
  Lemma Sum_ext : forall n (f g : nat -> R), (forall i, i < n -> f i = g i) -> Sum n f = Sum n g.
  Proof. intros n f g H. unfold Sum. apply rsum_ext. intros i Hi. apply H. apply in_seq in Hi. lia. Qed.
  Lemma Sums_ext : forall ds (f g : list nat -> R), (forall l, Forall2 lt l ds -> f l = g l) -> Sums ds f = Sums ds g.
  Proof.
    induction ds as [|d ds IH]; intros f g H; cbn [Sums]; [apply H; constructor|]. apply Sum_ext. intros i Hi. apply IH. intros l Hl. apply H. now constructor.
  Qed.
  Lemma Sum_1 : forall f : nat -> R, Sum 1 f = f 0.
  Proof. intro f. unfold Sum. cbn [seq map rsum fold_right]. rewrite (ea_add_comm _ EA). apply (ea_add_0 _ EA). Qed.
  Lemma points_Sums : forall (ds : list nat) (f : list entry -> R),
    rsum (map f (points (map (fun d => [(tt, d)]) ds))) = Sums ds (fun l => f (map (fun i => (tt, i)) l)).
  Proof.
    induction ds as [|d ds IH]; intro f; cbn [map points Sums].
    - cbn [map rsum fold_right]. rewrite (ea_add_comm _ EA). apply (ea_add_0 _ EA).
    - cbn [flat_map fst snd]. rewrite app_nil_r. unfold Sum.
      assert (G : forall s, rsum (map f (flat_map (fun i => map (cons (tt, i)) (points (map (fun d => [(tt, d)]) ds))) s)) = rsum (map (fun i => Sums ds (fun l => f (map (fun i => (tt, i)) (i :: l)))) s)).
      { induction s as [|i s IHs]; [reflexivity|]. cbn [flat_map map]. rewrite map_app, (rsum_app EA), IHs, map_map. cbn [rsum fold_right]. f_equal. exact (IH (fun x => f ((tt, i) :: x))). }
      apply G.
  Qed.

  (** ** contraction *)
  Section Contract.
    Variables (E : @env R) (J : internal).
    Hypothesis HJ : NoDup [i_contract_0 J; i_contract_1 J; i_contract_2 J].

    Definition product (t1 t2 : tensor unit R) (pairs : list (nat * nat)) (a : list (nat * nat)) (idx : list nat) : R :=
      rmul (value t1 (combine (map fst pairs) idx ++ a)) (value t2 (combine (map snd pairs) idx ++ a)).

    (** pairs without edges contribute an index 0 that nobody looks at *)
    Lemma drop_absent : forall (K1 K2 : slots) (pairs : list (nat * nat)) (G : list (nat * nat) -> list (nat * nat) -> R),
      (forall a b, In (a, b) pairs -> slot K1 a = slot K2 b) ->
      (forall l1 l1' l2 l2', (forall n, slot K1 n <> None -> mfind n l1 = mfind n l1') -> (forall n, slot K2 n <> None -> mfind n l2 = mfind n l2') -> G l1 l2 = G l1' l2') ->
      let P := filter (fun p => match slot K1 (fst p) with Some _ => true | None => false end) pairs in
      Sums (map (fun p => size (slot K1 (fst p))) pairs) (fun idx => G (combine (map fst pairs) idx) (combine (map snd pairs) idx)) =
      Sums (map (fun p => size (slot K1 (fst p))) P) (fun idx => G (combine (map fst P) idx) (combine (map snd P) idx)).
    Proof.
      intros K1 K2. induction pairs as [|[a b] pairs IH]; intros G Hm HG; [reflexivity|]. cbn [map filter fst snd Sums].
      assert (Hab : slot K1 a = slot K2 b) by (apply Hm; now left). destruct (slot K1 a) as [d|] eqn:Sa.
      - cbn [map fst snd Sums size]. rewrite Sa. cbn [size]. apply Sum_ext. intros i Hi. cbn [combine].
        apply (IH (fun l1 l2 => G ((a, i) :: l1) ((b, i) :: l2))); [intros; apply Hm; now right|].
        intros l1 l1' l2 l2' H1 H2. apply HG; intros n Hn; cbn [mfind]; [rewrite H1 by exact Hn|rewrite H2 by exact Hn]; reflexivity.
      - cbn [size]. rewrite Sum_1. rewrite <- IH; [|intros; apply Hm; now right|exact HG]. apply Sums_ext. intros l _. cbn [combine]. apply HG; intros n Hn; cbn [mfind]; rewrite neqb; auto; intros ->; congruence.
    Qed.

    Theorem contract_has : forall t1 t2 K1 K2 pairs, has t1 K1 -> has t2 K2 -> NoDup (map fst pairs) -> NoDup (map snd pairs) ->
      (forall a b, In (a, b) pairs -> slot K1 a = slot K2 b) ->
      (forall n, In n (keys (without (map fst pairs) K1)) -> In n (keys (without (map snd pairs) K2)) -> False) ->
      exists r, contract E J t1 t2 pairs = Ok r /\ has r (without (map fst pairs) K1 ++ without (map snd pairs) K2) /\
        forall a, in_slots (without (map fst pairs) K1 ++ without (map snd pairs) K2) a ->
          value r a = Sums (map (fun p => size (slot K1 (fst p))) pairs) (product t1 t2 pairs a).
    Proof.
      intros t1 t2 K1 K2 pairs H1 H2 N1 N2 Hm Hd.
      set (K := without (map fst pairs) K1 ++ without (map snd pairs) K2).
      assert (Hp : forall a b, In (a, b) pairs -> member a (t_names t1) && member b (t_names t2) = match slot K1 a with Some _ => true | None => false end).
      { intros a b Hab. specialize (Hm a b Hab). destruct (slot K1 a) as [d|] eqn:Sa.
        - apply andb_true_iff. split; apply mem_name_In; [apply (has_in t1 K1 a H1)|apply (has_in t2 K2 b H2)]; congruence.
        - apply andb_false_iff. left. apply not_true_is_false. intro Q. apply mem_name_In in Q. apply (has_in t1 K1 a H1) in Q. congruence. }
      rewrite contract_missing. set (P := filter _ pairs).
      assert (HP : P = filter (fun p => match slot K1 (fst p) with Some _ => true | None => false end) pairs).
      { unfold P. clear - Hp. induction pairs as [|[a b] pairs IH]; [reflexivity|]. cbn [filter fst snd]. rewrite (Hp a b (or_introl eq_refl)). rewrite IH; [reflexivity|]. intros; apply Hp; now right. }
      clearbody P. subst P. set (P := filter _ pairs).
      assert (HPi : forall a b, In (a, b) P -> In (a, b) pairs /\ slot K1 a <> None).
      { intros a b Hab. apply filter_In in Hab as [X Y]. cbn [fst] in Y. split; [exact X|]. now destruct (slot K1 a). }
      assert (HPo : forall a b, In (a, b) pairs -> slot K1 a <> None -> In (a, b) P).
      { intros a b X Y. apply filter_In. split; [exact X|]. cbn [fst]. now destruct (slot K1 a). }
      assert (F1 : incl (map fst P) (t_names t1)).
      { intros x Hx. apply in_map_iff in Hx as [[a b] [<- Hab]]. apply HPi in Hab as [_ Y]. now apply (has_in t1 K1 a H1). }
      assert (F2 : incl (map snd P) (t_names t2)).
      { intros x Hx. apply in_map_iff in Hx as [[a b] [<- Hab]]. apply HPi in Hab as [X Y]. apply (has_in t2 K2 b H2). now rewrite <- (Hm a b X). }
      assert (ND : forall (f : nat * nat -> nat), NoDup (map f pairs) -> NoDup (map f P)).
      { intros f. unfold P. clear. induction pairs as [|p l IH]; intro H; [constructor|]. cbn [map] in H. apply NoDup_cons_iff in H as [Ha Hb]. cbn [filter].
        destruct (slot K1 (fst p)); [|now apply IH]. cbn [map]. constructor; [|now apply IH]. intro Q. apply Ha. apply in_map_iff in Q as [z [<- Hz]]. apply in_map. now apply filter_In in Hz. }
      assert (Nof : forall n, In n (t_names t1) -> In n (t_names t2) -> ~ In n (map fst P) -> ~ In n (map snd P) -> False).
      { intros n A1 A2 A3 A4. apply (has_in t1 K1 n H1) in A1. apply (has_in t2 K2 n H2) in A2. apply (Hd n); apply slot_keys; rewrite slot_without.
        - destruct (member n (map fst pairs)) eqn:M; [|exact A1]. exfalso. apply mem_name_In in M. apply in_map_iff in M as [[a b] [<- Hab]]. apply A3. change (fst (a, b)) with a in *. apply in_map_iff. exists (a, b). split; [reflexivity|]. now apply HPo.
        - destruct (member n (map snd pairs)) eqn:M; [|exact A2]. exfalso. apply mem_name_In in M. apply in_map_iff in M as [[a b] [<- Hab]]. apply A4. cbn [snd] in *. apply in_map_iff. exists (a, b). split; [reflexivity|]. apply HPo; [exact Hab|]. now rewrite (Hm a b Hab). }
      destruct (contract_plain_at Ns Nf EA E J t1 t2 P HJ (h_wf _ _ H1) (h_wf _ _ H2) (h_block _ _ H1) (h_block _ _ H2) F1 F2 (ND fst N1) (ND snd N2)) as [r [fused [R1 [R2 [R3 [R4 [R5 [R6 [R7 R8]]]]]]]]].
      { intros a b Hab. assert (Q := HPi a b Hab). destruct Q as [Q1 Q2].
        assert (I1 : In a (t_names t1)) by (apply F1; exact (in_map fst _ _ Hab)). assert (I2 : In b (t_names t2)) by (apply F2; exact (in_map snd _ _ Hab)).
        rewrite (proj2 (dimension_of t1 a (h_wf _ _ H1) (h_block _ _ H1) I1)), (proj2 (dimension_of t2 b (h_wf _ _ H2) (h_block _ _ H2) I2)).
        assert (D1 := has_size t1 K1 a H1 I1). assert (D2 := has_size t2 K2 b H2 I2). rewrite (Hm a b Q1) in D1. congruence. }
      { intros n A1 A2 A3 A4. destruct (Nof n A1 A2 A3 A4). }
      assert (Ef : fused = []).
      { destruct fused as [|n fused]; [reflexivity|]. destruct (proj1 (R5 n) (or_introl eq_refl)) as [A1 [A2 [A3 A4]]]. destruct (Nof n A1 A2 A3 A4). }
      subst fused. cbn [app] in R6, R7. rewrite !app_nil_r in R6, R7.
      assert (M1 : forall n, In n (free_names (t_names t1) (map fst P)) <-> slot (without (map fst pairs) K1) n <> None).
      { intro n. unfold free_names. rewrite filter_In, slot_without, (has_in t1 K1 n H1). split.
        - intros [A B]. destruct (member n (map fst pairs)) eqn:M; [|exact A]. exfalso. apply mem_name_In in M. apply in_map_iff in M as [[a b] [<- Hab]]. change (fst (a, b)) with a in *.
          apply negb_true_iff in B. apply mem_name_false in B. apply B. apply in_map_iff. exists (a, b). split; [reflexivity|now apply HPo].
        - intro A. destruct (member n (map fst pairs)) eqn:M; [congruence|]. split; [exact A|]. apply negb_true_iff. apply mem_name_false. apply mem_name_false in M. intro Q. apply M.
          apply in_map_iff in Q as [[a b] [<- Hab]]. apply in_map_iff. exists (a, b). split; [reflexivity|now apply HPi]. }
      assert (M2 : forall n, In n (free_names (t_names t2) (map snd P)) <-> slot (without (map snd pairs) K2) n <> None).
      { intro n. unfold free_names. rewrite filter_In, slot_without, (has_in t2 K2 n H2). split.
        - intros [A B]. destruct (member n (map snd pairs)) eqn:M; [|exact A]. exfalso. apply mem_name_In in M. apply in_map_iff in M as [[a b] [<- Hab]]. cbn [snd] in *.
          apply negb_true_iff in B. apply mem_name_false in B. apply B. apply in_map_iff. exists (a, b). split; [reflexivity|]. apply HPo; [exact Hab|]. now rewrite (Hm a b Hab).
        - intro A. destruct (member n (map snd pairs)) eqn:M; [congruence|]. split; [exact A|]. apply negb_true_iff. apply mem_name_false. apply mem_name_false in M. intro Q. apply M.
          apply in_map_iff in Q as [[a b] [<- Hab]]. apply in_map_iff. exists (a, b). split; [reflexivity|now apply HPi]. }
      assert (MK : forall n, slot K n = match slot (without (map fst pairs) K1) n with Some d => Some d | None => slot (without (map snd pairs) K2) n end).
      { intro n. unfold K. rewrite slot_app. destruct (mfind n (without (map fst pairs) K1)) as [o|] eqn:M.
        - unfold slot at 1. rewrite M. destruct o as [d|]; [reflexivity|]. destruct (slot (without (map snd pairs) K2) n) eqn:M'; [|reflexivity]. exfalso. apply (Hd n); [apply mfind_In in M; exact (in_map fst _ _ M)|apply slot_keys; congruence].
        - unfold slot at 2. now rewrite M. }
      assert (HK : has r K).
      { constructor; [exact R2|exact R3|]. intro n. rewrite MK.
        assert (L : dimension r n = match mfind n (combine (free_names (t_names t1) (map fst P) ++ free_names (t_names t2) (map snd P)) (map (edge_named (legs_of t1)) (free_names (t_names t1) (map fst P)) ++ map (edge_named (legs_of t2)) (free_names (t_names t2) (map snd P)))) with
                    | Some e => Some (match emap e with sd :: _ => snd sd | [] => 0 end) | None => None end).
        { unfold dimension, legs_of. now rewrite R6, R7. }
        rewrite L. clear L.
        assert (CA : forall (l1 l2 : list nat) (f g : nat -> edge unit), combine (l1 ++ l2) (map f l1 ++ map g l2) = combine l1 (map f l1) ++ combine l2 (map g l2)).
        { clear. induction l1 as [|x l1 IH]; intros l2 f g; [reflexivity|]. cbn. now rewrite IH. }
        rewrite CA, mfind_app.
        assert (CF : forall (l : list nat) (f : nat -> edge unit), mfind n (combine l (map f l)) = if member n l then Some (f n) else None).
        { clear. induction l as [|x l IH]; intro f; [reflexivity|]. cbn [map combine mfind member existsb]. destruct (Nat.eqb_spec n x) as [->|Q]; [now rewrite eqb_refl|]. rewrite (neqb n x Q). apply IH. }
        rewrite !CF. destruct (member n (free_names (t_names t1) (map fst P))) eqn:B1.
        - apply mem_name_In in B1. assert (I1 : In n (t_names t1)) by (unfold free_names in B1; now apply filter_In in B1). apply M1 in B1.
          rewrite (proj2 (dimension_of t1 n (h_wf _ _ H1) (h_block _ _ H1) I1)). cbn [snd]. rewrite slot_without in *. destruct (member n (map fst pairs)); [congruence|]. now rewrite (has_size t1 K1 n H1 I1).
        - assert (B1' : slot (without (map fst pairs) K1) n = None).
          { destruct (slot (without (map fst pairs) K1) n) eqn:X; [|reflexivity]. apply mem_name_false in B1. exfalso. apply B1. apply M1. congruence. }
          rewrite B1'. destruct (member n (free_names (t_names t2) (map snd P))) eqn:B2.
          + apply mem_name_In in B2. assert (I2 : In n (t_names t2)) by (unfold free_names in B2; now apply filter_In in B2). apply M2 in B2.
            rewrite (proj2 (dimension_of t2 n (h_wf _ _ H2) (h_block _ _ H2) I2)). cbn [snd]. rewrite slot_without in *. destruct (member n (map snd pairs)); [congruence|]. now rewrite (has_size t2 K2 n H2 I2).
          + destruct (slot (without (map snd pairs) K2) n) eqn:X; [|reflexivity]. apply mem_name_false in B2. exfalso. apply B2. apply M2. congruence. }
      exists r. split; [exact R1|]. split; [exact HK|]. intros a Ha.
      set (pos := map (fun n => (n, (tt, index a n))) (t_names r)).
      assert (V1 := value_read r K a HK Ha). fold pos in V1.
      assert (Asg : assigns pos (t_names r) (map (fun n => (tt, index a n)) (t_names r))).
      { unfold assigns, pos. rewrite map_map. apply map_ext_in. intros n Hn. now apply (find_pos (fun n => (tt, index a n))). }
      assert (Val : valid_pt (t_core r) (map (fun n => (tt, index a n)) (t_names r))).
      { split; [|destruct (ssum _); reflexivity]. rewrite <- (map_map (index a) (fun i => (tt, i))). apply (in_range_ext_plain r a K HK Ha). }
      rewrite (R8 pos _ Asg Val) in V1. injection V1 as <-. unfold contract_sum.
      replace (map (fun p => emap (edge_named (legs_of t1) (fst p))) P) with (map (fun d => [(tt, d)]) (map (fun p => size (slot K1 (fst p))) P)).
      2:{ rewrite map_map. apply map_ext_in. intros [x y] Hxy. cbn [fst]. assert (I1 : In x (t_names t1)) by (apply F1; exact (in_map fst _ _ Hxy)).
          rewrite (proj2 (dimension_of t1 x (h_wf _ _ H1) (h_block _ _ H1) I1)). now rewrite (has_size t1 K1 x H1 I1). }
      rewrite points_Sums.
      unfold product. rewrite (drop_absent K1 K2 pairs (fun l1 l2 => rmul (value t1 (l1 ++ a)) (value t2 (l2 ++ a))) Hm).
      2:{ intros l1 l1' l2 l2' X Y. f_equal; [apply (value_ext t1 K1 _ _ H1)|apply (value_ext t2 K2 _ _ H2)]; intros n Hn; unfold index; rewrite !mfind_app; [rewrite (X n Hn)|rewrite (Y n Hn)]; reflexivity. }
      fold P. apply Sums_ext. intros l Hl.
      assert (Ll : length l = length P) by (rewrite (Forall2_len _ _ _ _ _ Hl), map_length; reflexivity).
      assert (CM : forall ns : list nat, length ns = length l -> forall n : nat, mfind n (combine ns (map (fun i => (tt, i)) l)) = option_map (fun i => (tt, i)) (mfind n (combine ns l))).
      { clear. induction l as [|i l IH]; intros [|m ns] Hn n; cbn in Hn; try discriminate; [reflexivity|]. cbn [map combine mfind]. destruct (eqb n m); [reflexivity|]. apply IH. lia. }
      replace (map opposite (map (fun i => (tt, i)) l)) with (map (fun i => (tt, i)) l) by (rewrite map_map; apply map_ext; reflexivity).
      f_equal; apply element_value; intros n Hn; unfold index; rewrite !mfind_app, CM by (now rewrite map_length).
      - destruct (mfind n (combine (map fst P) l)) as [i|] eqn:Fi; [reflexivity|]. cbn [option_map].
        assert (Hr : In n (t_names r)).
        { rewrite R6. apply in_or_app. left. unfold free_names. apply filter_In. split; [exact Hn|]. apply negb_true_iff. apply mem_name_false. apply mfind_None in Fi. rewrite combine_map_fst in Fi by (now rewrite map_length). exact Fi. }
        unfold pos. rewrite (find_pos (fun n => (tt, index a n)) _ n Hr). reflexivity.
      - destruct (mfind n (combine (map snd P) l)) as [i|] eqn:Fi; [reflexivity|]. cbn [option_map].
        assert (Hr : In n (t_names r)).
        { rewrite R6. apply in_or_app. right. unfold free_names. apply filter_In. split; [exact Hn|]. apply negb_true_iff. apply mem_name_false. apply mfind_None in Fi. rewrite combine_map_fst in Fi by (now rewrite map_length). exact Fi. }
        unfold pos. rewrite (find_pos (fun n => (tt, index a n)) _ n Hr). reflexivity.
    Qed.
  End Contract.
End Plain.
