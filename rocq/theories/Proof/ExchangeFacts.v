(** Exchanging two groups of fermionic legs, and negation of exact numbers. *)
From Coq Require Import String List Bool Arith Lia Sorted Permutation.
From Verif Require Import Base.Outcome Base.SMap Model.Symmetry Model.Edge Model.Core Model.EdgeOperator
  Spec.Blocks Spec.Fuse Spec.Sign Spec.Relabel Spec.Contract Spec.FermiContract Proof.SymmetryFacts Proof.CoreFacts Proof.ElemFacts Proof.GroupFacts Proof.SignFacts Proof.EdgeOperatorFacts
  Proof.NamedOperator Proof.LegFacts Proof.SumFacts Proof.ContractNames Proof.RegroupFacts Proof.TransposeNames Proof.TransposeTensor Proof.TwoLegs Proof.OffsetFacts Proof.TableFacts.
Import ListNotations.

Lemma odd_plus : forall a b, Nat.odd (a + b) = xorb (Nat.odd a) (Nat.odd b).
Proof. exact Nat.odd_add. Qed.
Lemma odd_count : forall A (f : A -> bool) l, Nat.odd (count f l) = par f l.
Proof. intros. unfold count. symmetry. apply par_filter. Qed.

Lemma filter_nothing : forall A (f : A -> bool) l, (forall x, In x l -> f x = false) -> filter f l = [].
Proof. induction l as [|x l IH]; intro H; [reflexivity|]. cbn [filter]. rewrite (H x (or_introl eq_refl)). apply IH. intros; apply H. now right. Qed.
Lemma ordered_app : forall A (f : A * A -> bool) l1 l2,
  par f (ordered_pairs (l1 ++ l2)) = xorb (par f (ordered_pairs l1)) (xorb (par (fun x => par (fun y => f (x, y)) l2) l1) (par f (ordered_pairs l2))).
Proof.
  induction l1 as [|x l1 IH]; intro l2; cbn [app ordered_pairs].
  - cbn [par fold_right]. now destruct (par f (ordered_pairs l2)).
  - rewrite map_app, !par_app, IH, !par_map.
    change (par (fun x0 => par (fun y => f (x0, y)) l2) (x :: l1)) with (xorb (par (fun y => f (x, y)) l2) (par (fun x0 => par (fun y => f (x0, y)) l2) l1)).
    destruct (par (fun x0 => f (x, x0)) l1), (par (fun y => f (x, y)) l2), (par f (ordered_pairs l1)), (par (fun x0 => par (fun y => f (x0, y)) l2) l1), (par f (ordered_pairs l2)); reflexivity.
Qed.
Lemma exchange_groups : forall odd l1 l2, NoDup (l1 ++ l2) -> Nat.odd (exchanged_odd odd (l1 ++ l2) (l2 ++ l1)) = par odd l1 && par odd l2.
Proof.
  intros odd l1 l2 Hn. rewrite exchanged_par, ordered_app.
  pose proof (NoDup_app_inv _ _ _ Hn) as [N1 [N2 N3]].
  assert (CB : forall a b i j, i < j -> nth_error (l2 ++ l1) i = Some b -> nth_error (l2 ++ l1) j = Some a -> comes_before (l2 ++ l1) b a = true).
  { intros a b i j H1 H2 H3. apply comes_before_iff. eauto. }
  assert (Hn' : NoDup (l2 ++ l1)) by (eapply Permutation_NoDup; [apply Permutation_app_comm|exact Hn]).
  rewrite (par_false _ _ (ordered_pairs l1)).
  2: { intros [a b] Hin. cbn [fst snd]. destruct (ordered_pairs_distinct _ _ _ _ N1 Hin) as [Hab [Ha Hb]]. apply in_ordered_pairs in Hin as [i [j [Hij [Hi Hj]]]].
       assert (C : comes_before (l2 ++ l1) a b = true).
       { apply comes_before_iff. exists (length l2 + i), (length l2 + j). split; [lia|]. rewrite !nth_error_app2 by lia. split; [now replace (length l2 + i - length l2) with i by lia|now replace (length l2 + j - length l2) with j by lia]. }
       rewrite (comes_before_flip _ a b Hn'), C; [now rewrite andb_false_r|apply in_or_app; auto|apply in_or_app; auto|exact Hab]. }
  rewrite (par_false _ _ (ordered_pairs l2)).
  2: { intros [a b] Hin. cbn [fst snd]. destruct (ordered_pairs_distinct _ _ _ _ N2 Hin) as [Hab [Ha Hb]]. apply in_ordered_pairs in Hin as [i [j [Hij [Hi Hj]]]].
       assert (C : comes_before (l2 ++ l1) a b = true).
       { apply comes_before_iff. exists i, j. split; [lia|]. rewrite !nth_error_app1; [auto| |]; apply nth_error_Some; congruence. }
       rewrite (comes_before_flip _ a b Hn'), C; [now rewrite andb_false_r|apply in_or_app; auto|apply in_or_app; auto|exact Hab]. }
  rewrite xorb_false_l, xorb_false_r.
  rewrite (par_ext _ _ (fun x => par odd l2 && odd x)).
  - rewrite par_and_const. apply andb_comm.
  - intros a Ha. rewrite andb_comm, <- par_and_const. apply par_ext. intros b Hb. cbn [fst snd].
    apply In_nth_error in Ha as [i Hi]. apply In_nth_error in Hb as [j Hj].
    rewrite (CB a b j (length l2 + i)); [apply andb_true_r| | |].
    + assert (j < length l2) by (apply nth_error_Some; congruence). lia.
    + rewrite nth_error_app1; [exact Hj|apply nth_error_Some; congruence].
    + rewrite nth_error_app2 by lia. now replace (length l2 + i - length l2) with i by lia.
Qed.

Section Negation.
  Context {R : Type} {RR : Scalar R}.
  Hypothesis EA : exact_arithmetic R.
  Hypothesis EN : exact_negation R.
  Lemma opp_unique : forall x y : R, radd x y = rzero -> y = ropp x.
  Proof.
    intros x y H. rewrite <- (ea_add_0 _ EA y), <- (en_opp _ EN x), (ea_add_comm _ EA x (ropp x)), <- (ea_add_assoc _ EA), H, (ea_add_comm _ EA). apply (ea_add_0 _ EA).
  Qed.
  Lemma opp_zero : ropp (rzero : R) = rzero.
  Proof. symmetry. apply opp_unique. apply (ea_add_0 _ EA). Qed.
  Lemma opp_invol : forall x : R, ropp (ropp x) = x.
  Proof. intro x. symmetry. apply opp_unique. rewrite (ea_add_comm _ EA). apply (en_opp _ EN). Qed.
  Lemma opp_add : forall x y : R, ropp (radd x y) = radd (ropp x) (ropp y).
  Proof.
    intros x y. symmetry. apply opp_unique.
    rewrite <- (ea_add_assoc _ EA x y), (ea_add_assoc _ EA y), (ea_add_comm _ EA y (ropp x)), <- (ea_add_assoc _ EA (ropp x)), (en_opp _ EN y).
    rewrite (ea_add_comm _ EA (ropp x) rzero), (ea_add_0 _ EA). apply (en_opp _ EN).
  Qed.
  Lemma opp_one_mul : forall x : R, rmul (ropp rone) x = ropp x.
  Proof. intro x. rewrite (en_mul _ EN). f_equal. apply (ea_mul_1 _ EA). Qed.
  Lemma mul_opp_r : forall x y : R, rmul x (ropp y) = ropp (rmul x y).
  Proof. intros x y. rewrite (ea_mul_comm _ EA), (en_mul _ EN). f_equal. apply (ea_mul_comm _ EA). Qed.
  Lemma opp_sum : forall l : list R, ropp (rsum l) = rsum (map ropp l).
  Proof. induction l as [|x l IH]; [apply opp_zero|]. cbn [map]. change (ropp (radd x (rsum l)) = radd (ropp x) (rsum (map ropp l))). now rewrite opp_add, IH. Qed.
  Lemma signed_zero : forall n, signed ropp n (rzero : R) = rzero.
  Proof. intro n. unfold signed. destruct (Nat.odd n); [apply opp_zero|reflexivity]. Qed.
  Lemma signed_parity : forall n m (x : R), Nat.odd n = Nat.odd m -> signed ropp n x = signed ropp m x.
  Proof. intros n m x H. unfold signed. now rewrite H. Qed.
  Lemma signed_signed : forall n m (x : R), signed ropp n (signed ropp m x) = signed ropp (n + m) x.
  Proof. intros n m x. unfold signed. rewrite odd_plus. destruct (Nat.odd n), (Nat.odd m); cbn [xorb]; auto using opp_invol. Qed.
  Lemma signed_mul : forall n m (x y : R), rmul (signed ropp n x) (signed ropp m y) = signed ropp (n + m) (rmul x y).
  Proof.
    intros n m x y. unfold signed. rewrite odd_plus. destruct (Nat.odd n), (Nat.odd m); cbn [xorb]; rewrite ?(en_mul _ EN), ?mul_opp_r, ?opp_invol; reflexivity.
  Qed.
  Lemma signed_sum_out : forall n (l : list R), signed ropp n (rsum l) = rsum (map (signed ropp n) l).
  Proof. intros n l. unfold signed. destruct (Nat.odd n); [apply opp_sum|]. now rewrite map_id. Qed.
End Negation.

Section Legs.
  Context {S R : Type} {SS : Sym S} {SL : SymLaws S} {RR : Scalar R}.
  Notation entry := (S * nat)%type.
  Lemma odd_total : forall (pos : list (nat * entry)) l, (forall n, In n l -> mfind n pos <> None) -> sodd (total (map (coord pos) l)) = par (leg_odd pos) l.
  Proof.
    intros pos l H. unfold total. rewrite map_map.
    assert (G : forall ks : list S, sodd (ssum ks) = par sodd ks).
    { induction ks as [|k ks IH]; [apply sodd_0|]. change (k :: ks) with ([k] ++ ks). rewrite ssum_app, sodd_add, IH, ssum_one. reflexivity. }
    rewrite G, par_map. apply par_ext. intros n Hn. unfold coord, leg_odd. specialize (H n Hn). destruct (mfind n pos) as [[s i]|]; [reflexivity|congruence].
  Qed.
  (** the sign of a call without applied parities *)
  Lemma sign_plain : forall (t : tensor S R) (a : @eo_args S) pos, a_apply_parity a = false -> a_ex_split a = [] -> a_ex_rev_merge a = [] ->
    Nat.odd (sign_number t a pos) =
    xorb (Nat.odd (exchanged_odd (leg_odd pos) (names2 t a) (concat (groups a))))
      (xorb (par (fun n => mem_name n (a_reversed a) && mem_name n (a_ex_rev a) && leg_odd pos n) (names2 t a))
            (par (fun nl => mem_name (fst nl) (a_ex_merge a) && Nat.odd (odd_pairs (leg_odd pos) (snd nl))) (combine (a_new_names a) (groups a)))).
  Proof.
    intros t a pos H1 H2 H3. unfold sign_number, merge_groups_named, selected. rewrite H1, H2, H3, !odd_plus, !odd_count, !odd_pairs_in.
    rewrite (par_false _ _ (split_groups t a)); [|reflexivity]. rewrite (par_false _ _ (concat (groups a))).
    2: { intros n _. cbn [mem_name existsb]. now rewrite andb_false_r. }
    now rewrite !xorb_false_l.
  Qed.
  (** arrows of a call that only groups *)
  Section Arrows.
  Variables (E : @env R) (t : tensor S R) (a : @eo_args S).
  Hypothesis W : wf_tensor t.
  Hypothesis Hren : a_rename a = [].
  Hypothesis Hsplit : a_split a = [].
  Hypothesis Hcut : a_cut a = [].
  Lemma legs3_regroup : forall n, In n (t_names t) -> edge_named (legs3 t a) n =
    let e := edge_named (combine (t_names t) (t_edges t)) n in if is_fermi && mem_name n (a_reversed a) then mkEdge (negb (earrow e)) (emap e) else e.
  Proof.
    intros n Hn. destruct (leg_of_name t n W Hn) as [e He]. rewrite (leg_named t n e W He). cbv zeta.
    assert (L : length (t_names t) = length (t_edges t)) by apply W.
    assert (L3 : map fst (legs3 t a) = t_names t).
    { unfold legs3. rewrite (plain_names2 t a) by assumption. apply combine_map_fst. unfold edges3, rev2. rewrite map_length, combine_length, map_length, (plain_names2 t a), (plain_edges2 t a) by assumption. lia. }
    unfold edge_named at 1. rewrite (In_mfind_nodup (legs3 t a) n (if is_fermi && mem_name n (a_reversed a) then mkEdge (negb (earrow e)) (emap e) else e)); [reflexivity|rewrite L3; apply W|].
    unfold legs3, edges3, rev2. rewrite (plain_names2 t a), (plain_edges2 t a) by assumption. revert He. generalize (t_names t) as ns, (t_edges t) as es. clear. induction ns as [|x ns IH]; intros [|y es] H; try contradiction.
    cbn [map combine]. destruct H as [H|H]; [left; injection H as -> ->|right; now apply IH]. cbn [fst snd]. now destruct (is_fermi && mem_name n (a_reversed a)).
  Qed.
  (** all legs of a group point the same way after the reversals *)
  Lemma group_arrow : forall l e (b : bool) n, is_fermi = true -> group_edge E t a l e -> incl l (t_names t) ->
    (forall m, In m l -> xorb (mem_name m (a_reversed a)) (earrow (edge_named (combine (t_names t) (t_edges t)) m)) = b) ->
    In n l -> arrow_valid (edge_named (combine (t_names t) (t_edges t)) n) = true -> earrow e = b.
  Proof.
    intros l e b n F Hg Hl Hb Hn Hv.
    assert (A : forall m, In m l -> earrow (edge_named (legs3 t a) m) = b /\
              arrow_valid (edge_named (legs3 t a) m) = arrow_valid (edge_named (combine (t_names t) (t_edges t)) m)).
    { intros m Hm. rewrite legs3_regroup by auto. cbv zeta. rewrite <- (Hb m Hm), F. cbn [andb].
      destruct (mem_name m (a_reversed a)); cbn [earrow emap xorb]; split; try reflexivity; now destruct (earrow _). }
    destruct (Nat.eq_dec (length l) 1) as [HL|HL].
    - destruct l as [|m [|? ?]]; simpl in HL; try lia. rewrite (ge_one _ _ _ _ _ Hg m eq_refl). apply A. now left.
    - pose proof (ge_fermi _ _ _ _ _ Hg HL F) as H. unfold first_arrow in H.
      destruct (find arrow_valid (map (edge_named (legs3 t a)) l)) as [e'|] eqn:Ef.
      + apply find_some in Ef as [Hin _]. apply in_map_iff in Hin as [m [<- Hm]]. injection H as ->. now apply A.
      + exfalso. pose proof (find_none _ _ Ef (edge_named (legs3 t a) n) (in_map _ _ _ Hn)) as X. destruct (A n Hn) as [_ Y]. congruence.
  Qed.
  End Arrows.
End Legs.
