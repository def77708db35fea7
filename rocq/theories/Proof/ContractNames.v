(** Names in contractions: pairs, plan, groups. *)
From Coq Require Import String List Bool Arith Lia Sorted Permutation.
From Verif Require Import Base.Outcome Base.SMap Model.Symmetry Model.Edge Model.Core Model.EdgeOperator Model.Elementwise Model.Contract
  Spec.Blocks Spec.Relabel Spec.Contract Proof.SymmetryFacts Proof.CoreFacts Proof.ElemFacts Proof.GroupFacts Proof.EdgeOperatorFacts Proof.NamedOperator Proof.LegFacts Proof.SumFacts.
Import ListNotations.

Local Notation tlegs t := (combine (t_names t) (t_edges t)).

Lemma mfind_app : forall K V (OK : Ord K) (l1 l2 : list (K * V)) k,
  mfind k (l1 ++ l2) = match mfind k l1 with Some v => Some v | None => mfind k l2 end.
Proof. intros K V OK l1 l2 k. induction l1 as [|[k' v'] l1 IH]; [reflexivity|]. cbn [app mfind]. destruct (eqb k k'); auto. Qed.
Lemma of_list_find : forall K V (OK : Ord K) (OL : OrdLaws K) (l : list (K * V)) k v, NoDup (map fst l) -> In (k, v) l -> mfind k (of_list l) = Some v.
Proof.
  intros K V OK OL l. unfold of_list.
  assert (G : forall l (m : list (K * V)) k, NoDup (map fst l) ->
    mfind k (fold_left (fun m kv => mset (fst kv) (snd kv) m) l m) = match mfind k l with Some v => Some v | None => mfind k m end).
  { clear l. induction l as [|[k' v'] l IH]; intros m k Hn; [reflexivity|]. cbn [fold_left fst snd map] in *. inversion Hn as [|? ? Hk Hn']; subst.
    rewrite IH by exact Hn'. cbn [mfind]. destruct (eqb k k') eqn:Ek.
    - apply eqb_eq in Ek. subst k'. rewrite (proj2 (mfind_None l k)) by exact Hk. now rewrite mfind_mset_same.
    - destruct (mfind k l); [reflexivity|]. apply mfind_mset_other. now apply eqb_false. }
  intros k v Hn Hin. rewrite G by exact Hn. now rewrite (In_mfind_nodup l k v Hn Hin).
Qed.
Lemma of_list_keys : forall K V (OK : Ord K) (OL : OrdLaws K) (l : list (K * V)) k, In k (map fst (of_list l)) <-> In k (map fst l).
Proof.
  intros K V OK OL l k. unfold of_list.
  assert (G : forall l (m : list (K * V)), In k (map fst (fold_left (fun m kv => mset (fst kv) (snd kv) m) l m)) <-> In k (map fst l) \/ In k (map fst m)).
  { clear l. induction l as [|[k' v'] l IH]; intro m; cbn [fold_left map fst snd]; [simpl; tauto|]. rewrite IH, mset_keys. simpl. intuition congruence. }
  rewrite G. simpl. tauto.
Qed.
(** a std::set of the elements of a list *)
Lemma sorted_set : forall l : list nat, NoDup (map fst (of_list (map (fun n => (n, tt)) l))) /\
  StronglySorted lt (map fst (of_list (map (fun n => (n, tt)) l))) /\
  (forall n, In n (map fst (of_list (map (fun n => (n, tt)) l))) <-> In n l).
Proof.
  intro l. pose proof (of_list_sorted (map (fun n => (n, tt)) l)) as H. split; [now apply msorted_nodup|]. split.
  - unfold msorted in H. revert H. generalize (map fst (of_list (map (fun n => (n, tt)) l))). intros l' H.
    induction H as [|a l' H IH F]; constructor; auto. revert F. apply Forall_impl. intros b Hb. now apply Nat.compare_lt_iff.
  - intro n. rewrite (of_list_keys nat unit _ _ _ n), map_map. cbn [fst]. rewrite map_id. reflexivity.
Qed.

Lemma mem_name_In : forall n l, mem_name n l = true <-> In n l.
Proof.
  intros n l. unfold mem_name. rewrite existsb_exists. split.
  - intros [x [H E]]. apply Nat.eqb_eq in E. now subst.
  - intro H. exists n. split; [exact H|apply Nat.eqb_refl].
Qed.
Lemma member_In : forall n l, member n l = true <-> In n l.
Proof. exact mem_name_In. Qed.
Lemma mem_name_false : forall n l, mem_name n l = false <-> ~ In n l.
Proof. intros n l. rewrite <- not_true_iff_false, mem_name_In. reflexivity. Qed.

Section Fit.
  Variable f : nat * nat -> nat.
  Lemma find_pair : forall (pairs : list (nat * nat)) p, NoDup (map f pairs) -> In p pairs -> find (fun q => Nat.eqb (f q) (f p)) pairs = Some p.
  Proof.
    induction pairs as [|q pairs IH]; intros p Hn Hin; [destruct Hin|]. cbn [map] in Hn. inversion Hn as [|? ? Hq Hn']; subst. cbn [find].
    destruct Hin as [->|Hin]; [now rewrite Nat.eqb_refl|]. destruct (Nat.eqb_spec (f q) (f p)) as [Ee|_]; [|now apply IH].
    exfalso. apply Hq. rewrite Ee. now apply in_map.
  Qed.
  Lemma fit_perm : forall names (pairs : list (nat * nat)), NoDup names -> NoDup (map f pairs) -> incl (map f pairs) names ->
    Permutation pairs (flat_map (fun n => match find (fun p => Nat.eqb (f p) n) pairs with Some p => [p] | None => [] end) names).
  Proof.
    intros names pairs Hn Hp Hi. apply NoDup_Permutation.
    - now apply NoDup_map_inv in Hp.
    - apply NoDup_flat_map; auto.
      + intros n _. destruct (find _ pairs); repeat constructor; intros [].
      + intros x y z _ _ Hx Hy. destruct (find (fun p => Nat.eqb (f p) x) pairs) as [q|] eqn:E1; [|destruct Hx]. destruct Hx as [->|[]].
        destruct (find (fun p => Nat.eqb (f p) y) pairs) as [q|] eqn:E2; [|destruct Hy]. destruct Hy as [->|[]].
        apply find_some in E1 as [_ E1]. apply find_some in E2 as [_ E2]. apply Nat.eqb_eq in E1, E2. congruence.
    - intro p. rewrite in_flat_map. split.
      + intro H. exists (f p). split; [apply Hi; now apply in_map|]. rewrite (find_pair pairs p Hp H). now left.
      + intros [n [_ H]]. destruct (find _ pairs) as [q|] eqn:Eq; [|destruct H]. destruct H as [->|[]]. now apply find_some in Eq.
  Qed.
End Fit.

Lemma plan_perm : forall names1 names2 free1 free2 pairs, NoDup names1 -> NoDup names2 -> NoDup (map fst pairs) -> NoDup (map snd pairs) ->
  incl (map fst pairs) names1 -> incl (map snd pairs) names2 ->
  exists common put1 put2, contract_plan names1 names2 free1 free2 pairs = (common, put1, put2) /\ Permutation pairs common.
Proof.
  intros names1 names2 free1 free2 pairs N1 N2 P1 P2 I1 I2.
  pose proof (fit_perm fst names1 pairs N1 P1 I1) as F1. pose proof (fit_perm snd names2 pairs N2 P2 I2) as F2.
  unfold contract_plan. destruct (is_nil free1); [do 3 eexists; split; [reflexivity|exact F2]|].
  destruct (is_nil free2); [do 3 eexists; split; [reflexivity|exact F1]|].
  destruct (negb (Nat.eqb (last free1 0) (last names1 0))); [do 3 eexists; split; [reflexivity|exact F1]|].
  destruct (negb (Nat.eqb (last free2 0) (last names2 0))); do 3 eexists; (split; [reflexivity|exact F2]).
Qed.
Lemma present_all : forall names1 names2 pairs, incl (map fst pairs) names1 -> incl (map snd pairs) names2 -> present_pairs names1 names2 pairs = pairs.
Proof.
  intros names1 names2 pairs I1 I2. unfold present_pairs. induction pairs as [|[x y] pairs IH]; [reflexivity|]. cbn [filter fst snd map] in *.
  rewrite (proj2 (mem_name_In x names1)) by (apply I1; now left). rewrite (proj2 (mem_name_In y names2)) by (apply I2; now left). cbn [andb]. f_equal.
  apply IH; intros z Hz; [apply I1|apply I2]; now right.
Qed.
Lemma present_idem : forall names1 names2 pairs, present_pairs names1 names2 (present_pairs names1 names2 pairs) = present_pairs names1 names2 pairs.
Proof.
  intros names1 names2 pairs. apply present_all; intros n Hn; apply in_map_iff in Hn as [p [<- Hp]]; apply filter_In in Hp as [_ Hp];
    apply andb_true_iff in Hp as [H1 H2]; now apply mem_name_In.
Qed.

(** the members of a leg list not in a list, and those that are *)
Lemma split_perm : forall A (f : A -> bool) l, Permutation l (filter f l ++ filter (fun x => negb (f x)) l).
Proof.
  induction l as [|x l IH]; [constructor|]. cbn [filter]. destruct (f x); cbn [negb app]; [now constructor|].
  etransitivity; [constructor; exact IH|]. apply Permutation_middle.
Qed.
Lemma map_filter_fst : forall A B (f : A -> bool) (l : list (A * B)), map fst (filter (fun x => f (fst x)) l) = filter f (map fst l).
Proof. induction l as [|[a b] l IH]; [reflexivity|]. cbn [filter map fst]. destruct (f a); cbn [map fst]; now rewrite IH. Qed.
Lemma NoDup_filter : forall A (f : A -> bool) l, NoDup l -> NoDup (filter f l).
Proof.
  induction l as [|x l IH]; intro H; [constructor|]. inversion H; subst. cbn [filter]. destruct (f x); auto. constructor; auto.
  intro Hc. apply filter_In in Hc. tauto.
Qed.

Section Legs.
  Context {S R : Type} {SS : Sym S} {SL : SymLaws S} {RR : Scalar R}.
  Notation entry := (S * nat)%type.
  Lemma edge_of_ok : forall (t : tensor S R) n, wf_tensor t -> In n (t_names t) -> edge_of t n = Ok (edge_named (tlegs t) n).
  Proof.
    intros t n W Hn. destruct (leg_of_name t n W Hn) as [e He]. rewrite (leg_named t n e W He).
    apply In_nth_error in He as [i Hi]. apply combine_nth_inv in Hi as [H1 H2].
    unfold edge_of. rewrite (proj2 (name_index (t_names t) n i (wf_nodup _ W)) H1). cbn [at_or_throw bind]. now rewrite H2.
  Qed.
  Lemma free_legs : forall (t : tensor S R) (f : nat -> bool), wf_tensor t ->
    map snd (filter (fun ne => f (fst ne)) (tlegs t)) = map (edge_named (tlegs t)) (filter f (t_names t)).
  Proof.
    intros t f W.
    transitivity (map (edge_named (tlegs t)) (map fst (filter (fun ne => f (fst ne)) (tlegs t)))).
    - rewrite map_map. apply map_ext_in. intros [n e] Hin. cbn [fst snd]. symmetry. apply (leg_named t n e W). now apply filter_In in Hin.
    - rewrite map_filter_fst. rewrite combine_map_fst by apply W. reflexivity.
  Qed.
  Lemma free_legs_fst : forall (t : tensor S R) (f : nat -> bool), wf_tensor t -> map fst (filter (fun ne => f (fst ne)) (tlegs t)) = filter f (t_names t).
  Proof. intros t f W. rewrite map_filter_fst. now rewrite combine_map_fst by apply W. Qed.

  (** coordinates of the contracted edges, then those of the result *)
  Lemma find_combine : forall (l : list nat) (pt : list entry) n, NoDup l -> length l = length pt -> In n l -> exists x, mfind n (combine l pt) = Some x /\ In (n, x) (combine l pt).
  Proof.
    intros l pt n Hn HL Hin. assert (Hk : In n (map fst (combine l pt))) by (now rewrite combine_map_fst).
    apply mfind_Some_In in Hk as [x Hx]. exists x. split; [exact Hx|now apply mfind_In].
  Qed.
  Lemma find_combine_none : forall (l : list nat) (pt : list entry) n, length l = length pt -> ~ In n l -> mfind n (combine l pt) = None.
  Proof. intros l pt n HL Hin. apply mfind_None. now rewrite combine_map_fst. Qed.
End Legs.
