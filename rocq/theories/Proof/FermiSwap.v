(** Exchanging the operands of a contraction, and transposing them before. *)
From Coq Require Import String List Bool Arith Lia Permutation.
From Verif Require Import Base.Outcome Base.SMap Model.Symmetry Model.Edge Model.Core Model.EdgeOperator Model.Contract
  Spec.Blocks Spec.Fuse Spec.Sign Spec.Relabel Spec.Contract Spec.FermiContract Proof.SymmetryFacts Proof.LoopFacts Proof.CoreFacts Proof.ConstructFacts Proof.ElemFacts Proof.GroupFacts
  Proof.CopyLoopFacts Proof.SignFacts Proof.TransposeNames Proof.NamedOperator Proof.MergeNames Proof.LegFacts Proof.ContractNames Proof.SumFacts Proof.ExchangeFacts Proof.SplitMerged Proof.ContractSym.
Import ListNotations.
Local Notation tlegs t := (combine (t_names t) (t_edges t)).
Local Notation swapped pairs := (map (fun p : nat * nat => (snd p, fst p)) pairs).

Lemma swapped_fst : forall pairs, map fst (swapped pairs) = map snd pairs.
Proof. intro. rewrite map_map. reflexivity. Qed.
Lemma swapped_snd : forall pairs, map snd (swapped pairs) = map fst pairs.
Proof. intro. rewrite map_map. reflexivity. Qed.

(** two calls whose results differ in g *)
Lemma two_outcomes : forall (A B : Type) (g : A -> B) (x y : res A) b1 b2, bind x (fun r => Ok (g r)) = Ok b1 -> bind y (fun r => Ok (g r)) = Ok b2 -> b1 <> b2 ->
  (forall r r', x = Ok r -> y = Ok r' -> g r = g r') -> False.
Proof. intros A B g [r| | |] [r'| | |] b1 b2 H1 H2 N H; try discriminate. injection H1 as <-. injection H2 as <-. apply N. now apply H. Qed.

Section Terms.
  Context {S R : Type} {SS : Sym S} {SL : SymLaws S} {RR : Scalar R}.
  Notation entry := (S * nat)%type.
  Lemma opposite_invol : forall x : entry, opposite (opposite x) = x.
  Proof. intros [s i]. unfold opposite. cbn [fst snd]. now rewrite sneg_invol. Qed.
  Lemma opposites_invol : forall pt : list entry, map opposite (map opposite pt) = pt.
  Proof. intro pt. rewrite map_map. rewrite <- (map_id pt) at 2. apply map_ext. apply opposite_invol. Qed.

  Lemma free_perm : forall names l, NoDup names -> NoDup l -> incl l names -> Permutation names (free_names names l ++ l).
  Proof.
    intros names l N1 N2 Hi. unfold free_names. apply NoDup_Permutation; [exact N1| |].
    - apply NoDup_app_intro; [now apply NoDup_filter|exact N2|]. intros x Hx. apply filter_In in Hx as [_ Hx]. apply negb_true_iff in Hx. intro Hc. apply (member_In x l) in Hc. congruence.
    - intro x. rewrite in_app_iff, filter_In, negb_true_iff. split.
      + intro Hx. destruct (member x l) eqn:Em; [right; now apply member_In|left; auto].
      + intros [[Hx _]|Hx]; auto.
  Qed.
  Lemma free_not : forall names l n, In n (free_names names l) -> In n names /\ ~ In n l.
  Proof. intros names l n H. apply filter_In in H as [H1 H2]. split; [exact H1|]. apply negb_true_iff in H2. intro Hc. apply (member_In n l) in Hc. congruence. Qed.

  (** coordinates of one operand in a term of the sum *)
  Lemma term_pos : forall (t : tensor S R) cs (pos : position) ps, wf_tensor t -> NoDup cs -> incl cs (t_names t) ->
    assigns pos (free_names (t_names t) cs) (map (coord pos) (free_names (t_names t) cs)) ->
    in_range (map (fun n => emap (edge_named (legs_of t) n)) (free_names (t_names t) cs)) (map (coord pos) (free_names (t_names t) cs)) ->
    in_range (map (fun n => emap (edge_named (legs_of t) n)) cs) ps ->
    let pos' := combine cs ps ++ pos in
    assigns pos' (t_names t) (map (coord pos') (t_names t)) /\ in_range (maps_of (t_edges t)) (map (coord pos') (t_names t)) /\
    (forall n, In n (free_names (t_names t) cs) -> mfind n pos' = mfind n pos) /\ map (coord pos') cs = ps.
  Proof.
    intros t cs pos ps W N I Ha Hr Hp pos'.
    assert (HL : length cs = length ps) by (apply in_range_length in Hp; rewrite map_length in Hp; lia).
    assert (Hf : forall n, In n (free_names (t_names t) cs) -> mfind n pos' = mfind n pos).
    { intros n Hn. apply free_not in Hn as [_ Hn]. unfold pos'. rewrite mfind_app. now rewrite (find_combine_none cs ps n HL Hn). }
    assert (Hc : map (coord pos') cs = ps).
    { etransitivity; [|exact (combine_coords cs ps N HL)]. apply map_ext_in. intros n Hn. unfold coord, pos'. rewrite mfind_app.
      destruct (find_combine cs ps n N HL Hn) as [x [Hx _]]. now rewrite Hx. }
    assert (Hs : forall n, In n cs -> exists x, mfind n pos' = Some x).
    { intros n Hn. destruct (find_combine cs ps n N HL Hn) as [x [Hx _]]. exists x. unfold pos'. rewrite mfind_app. now rewrite Hx. }
    assert (Hd : forall n, In n (t_names t) -> In n (free_names (t_names t) cs) \/ In n cs).
    { intros n Hn. apply in_app_or. eapply Permutation_in; [apply free_perm|exact Hn]; [apply W|exact N|exact I]. }
    assert (A : assigns pos' (t_names t) (map (coord pos') (t_names t))).
    { unfold assigns. rewrite map_map. apply map_ext_in. intros n Hn. unfold coord. destruct (Hd n Hn) as [H|H].
      - rewrite (Hf n H). unfold assigns in Ha. rewrite map_map in Ha. assert (X := proj1 map_ext_in_iff Ha n H). cbv beta in X. exact X.
      - now destruct (Hs n H) as [x ->]. }
    split; [exact A|]. split; [|split; [exact Hf|exact Hc]].
    assert (Hr' : in_range (map (fun n => emap (edge_named (legs_of t) n)) (free_names (t_names t) cs)) (map (coord pos') (free_names (t_names t) cs))).
    { rewrite (map_ext_in (coord pos') (coord pos)); [exact Hr|]. intros n Hn. unfold coord. now rewrite (Hf n Hn). }
    rewrite <- Hc in Hp. unfold maps_of. rewrite <- (legs_to_edges t W), map_map. fold (legs_of t).
    apply (in_range_perm (fun n => emap (edge_named (legs_of t) n)) (coord pos') (free_names (t_names t) cs ++ cs)); [intros n Hn; apply in_or_app; auto|].
    rewrite !map_app. apply in_range_app; [now rewrite !map_length|]. auto.
  Qed.

  Lemma assigns_found : forall (ps : position) ns, assigns ps ns (map (coord ps) ns) -> forall n, In n ns -> mfind n ps <> None.
  Proof. intros ps ns H n Hn Hc. unfold assigns in H. rewrite map_map in H. assert (X := proj1 map_ext_in_iff H n Hn). cbv beta in X. unfold position in *. congruence. Qed.

  (** an element that is not zero is at conserved charges *)
  Lemma element_conserved : forall (t : tensor S R) pos, wf_tensor t -> assigns pos (t_names t) (map (coord pos) (t_names t)) ->
    in_range (maps_of (t_edges t)) (map (coord pos) (t_names t)) ->
    element t pos = rzero \/ total (map (coord pos) (t_names t)) = szero.
  Proof.
    intros t pos W Ha Hr. destruct (eqb (ssum (map fst (map (coord pos) (t_names t)))) szero) eqn:H; [right; now apply eqb_eq in H|left].
    assert (H' : ssum (map fst (map (coord pos) (t_names t))) <> szero) by (intro Hc; rewrite Hc, eqb_refl in H; discriminate).
    unfold element. now rewrite (const_at_forbidden t pos _ W Ha Hr H').
  Qed.
End Terms.

Section Swap.
  Context {S R : Type} {SS : Sym S} {SL : SymLaws S} {RR : Scalar R}.
  Notation entry := (S * nat)%type.
  Hypothesis Ns : @is_nosym S SS = false.
  Hypothesis EA : exact_arithmetic R.
  Hypothesis HN : is_fermi = true -> exact_negation R.
  Variables (t1 t2 : tensor S R) (pairs : list (nat * nat)).
  Hypothesis W1 : wf_tensor t1.
  Hypothesis W2 : wf_tensor t2.
  Hypothesis HF : is_fermi = true -> length pairs <= 1.
  Hypothesis P1 : incl (map fst pairs) (t_names t1).
  Hypothesis P2 : incl (map snd pairs) (t_names t2).
  Hypothesis N1 : NoDup (map fst pairs).
  Hypothesis N2 : NoDup (map snd pairs).
  Hypothesis HM : forall a b, In (a, b) pairs -> (is_fermi = true -> earrow (edge_named (legs_of t1) a) = negb (earrow (edge_named (legs_of t2) b))) /\
       forall s d, In (s, d) (emap (edge_named (legs_of t1) a)) <-> In (sneg s, d) (emap (edge_named (legs_of t2) b)).
  Local Notation free1 := (free_names (t_names t1) (map fst pairs)).
  Local Notation free2 := (free_names (t_names t2) (map snd pairs)).
  Local Notation mp t l := (map (fun n => emap (edge_named (legs_of t) n)) l).
  Hypothesis HD : NoDup (free1 ++ free2).

  Lemma pairs_range : forall pt, in_range (mp t1 (map fst pairs)) pt <-> in_range (mp t2 (map snd pairs)) (map opposite pt).
  Proof.
    rewrite !map_map. revert HM. clear. generalize pairs as ps. induction ps as [|[a b] ps IH]; intros HM pt.
    - split; intro H; [inversion H; subst; constructor|]. destruct pt; [constructor|inversion H].
    - destruct (HM a b (or_introl eq_refl)) as [_ Hab]. assert (IH' := IH (fun x y H => HM x y (or_intror H))). split; intro H.
      + inversion H as [|? ? s i d pt' Hd Hi H']; subst. cbn [map]. apply (in_range_cons _ _ _ _ d); [|exact Hi|now apply IH']. cbn [fst snd opposite] in *. now apply Hab.
      + cbn [map] in H. destruct pt as [|[s i] pt']; cbn [map] in H; inversion H as [|? ? ? ? d ? Hd Hi H']; subst. cbn [map]. apply (in_range_cons _ _ _ _ d); [|exact Hi|now apply IH'].
        cbn [fst snd opposite] in *. apply Hab. exact Hd.
  Qed.

  (** the sum of the exchanged operands, term by term *)
  Lemma swapped_sum : forall pos, signed_sum t2 t1 (swapped pairs) pos =
    rsum (map (fun pt =>
            let pos1 := combine (map fst pairs) pt ++ pos in
            let pos2 := combine (map snd pairs) (map opposite pt) ++ pos in
            signed ropp (pair_sign t2 t1 (swapped pairs) pos2 pos1) (rmul (element t1 pos1) (element t2 pos2)))
         (points (map (fun p => emap (edge_named (legs_of t1) (fst p))) pairs))).
  Proof.
    intro pos. unfold signed_sum. symmetry. apply (rsum_bij EA _ _ _ _ (map opposite)).
    - apply NoDup_points. apply Forall_forall. intros m Hm. apply in_map_iff in Hm as [p [<- Hp]]. destruct (leg_of_name t1 (fst p) W1) as [e He]; [apply P1, in_map, Hp|].
      unfold legs_of. rewrite (leg_named t1 _ e W1 He). exact (leg_sorted t1 _ e W1 He).
    - apply NoDup_points. apply Forall_forall. intros m Hm. rewrite map_map in Hm. apply in_map_iff in Hm as [p [<- Hp]]. cbn [fst]. destruct (leg_of_name t2 (snd p) W2) as [e He]; [apply P2, in_map, Hp|].
      unfold legs_of. rewrite (leg_named t2 _ e W2 He). exact (leg_sorted t2 _ e W2 He).
    - intros pt Hpt. split.
      + apply in_points. apply in_points in Hpt. rewrite map_map. cbn [fst]. pose proof (proj1 (pairs_range pt)) as H. rewrite !map_map in H. exact (H Hpt).
      + cbv zeta. rewrite swapped_fst, swapped_snd, opposites_invol. f_equal. apply (ea_mul_comm _ EA).
    - intros x y _ _ H. rewrite <- (opposites_invol x), <- (opposites_invol y). now rewrite H.
    - intros z Hz. exists (map opposite z). split; [|apply opposites_invol]. apply in_points. apply in_points in Hz. rewrite map_map in Hz. cbn [fst] in Hz.
      pose proof (proj2 (pairs_range (map opposite z))) as H. rewrite opposites_invol in H. rewrite !map_map in H. exact (H Hz).
  Qed.

  Lemma bose_exchanged : @is_fermi S SS = false -> forall (pos : position) l l', exchanged_odd (leg_odd pos) l l' = 0.
  Proof.
    clear - SL. intros F pos l l'. unfold exchanged_odd. rewrite filter_nothing; [reflexivity|]. intros [x y] _. cbn [fst snd]. now rewrite (bose_leg_odd pos F).
  Qed.

  Lemma par_pos : forall (p q : position) l, (forall n, In n l -> mfind n p = mfind n q) -> par (leg_odd p) l = par (leg_odd q) l.
  Proof. clear. intros p q l H. apply par_ext. intros n Hn. unfold leg_odd. unfold position in *. now rewrite (H n Hn). Qed.

  Lemma swap_parity : is_fermi = true -> forall pos1 pos2 pos,
    (forall n, In n free1 -> mfind n pos1 = mfind n pos) -> (forall n, In n free2 -> mfind n pos2 = mfind n pos) ->
    par (leg_odd pos1) (t_names t1) = false -> par (leg_odd pos2) (t_names t2) = false ->
    (forall a b, In (a, b) pairs -> leg_odd pos1 a = leg_odd pos2 b) ->
    Nat.odd (exchanged_odd (leg_odd pos) (free2 ++ free1) (free1 ++ free2) + pair_sign t2 t1 (swapped pairs) pos2 pos1) = Nat.odd (pair_sign t1 t2 pairs pos1 pos2).
  Proof.
    intros F pos1 pos2 pos H1 H2 Z1 Z2 Hab. specialize (HF F).
    rewrite odd_plus, exchange_groups by (now apply (Permutation_NoDup (Permutation_app_comm _ _))).
    rewrite <- (par_pos pos2 pos free2 H2), <- (par_pos pos1 pos free1 H1).
    assert (Q1 : Permutation (t_names t1) (free1 ++ map fst pairs)) by (apply free_perm; [apply W1|exact N1|exact P1]).
    assert (Q2 : Permutation (t_names t2) (free2 ++ map snd pairs)) by (apply free_perm; [apply W2|exact N2|exact P2]).
    assert (D1 : NoDup (free1 ++ map fst pairs)) by (eapply Permutation_NoDup; [exact Q1|apply W1]).
    assert (D2 : NoDup (free2 ++ map snd pairs)) by (eapply Permutation_NoDup; [exact Q2|apply W2]).
    rewrite (par_perm _ _ _ _ Q1), par_app in Z1. rewrite (par_perm _ _ _ _ Q2), par_app in Z2.
    unfold pair_sign. rewrite swapped_fst, swapped_snd, !odd_plus, !odd_count.
    assert (R1 : rev (map fst pairs) = map fst pairs) by (destruct pairs as [|? [|? ?]]; simpl in HF; try lia; reflexivity).
    assert (R2 : rev (map snd pairs) = map snd pairs) by (destruct pairs as [|? [|? ?]]; simpl in HF; try lia; reflexivity).
    rewrite R1, R2.
    rewrite (exchanged_compose (leg_odd pos1) (t_names t1) (free1 ++ map fst pairs) (map fst pairs ++ free1)) by (try apply W1; auto using Permutation_app_comm).
    rewrite (exchanged_compose (leg_odd pos2) (t_names t2) (free2 ++ map snd pairs) (map snd pairs ++ free2)) by (try apply W2; auto using Permutation_app_comm).
    rewrite (exchange_groups (leg_odd pos1) free1) by exact D1. rewrite (exchange_groups (leg_odd pos2) free2) by exact D2.
    apply xorb_eq in Z1, Z2. rewrite Z1, Z2.
    generalize (Nat.odd (exchanged_odd (leg_odd pos1) (t_names t1) (free1 ++ map fst pairs))) as x1.
    generalize (Nat.odd (exchanged_odd (leg_odd pos2) (t_names t2) (free2 ++ map snd pairs))) as x2. intros x2 x1.
    destruct pairs as [|[a b] [|? ?]]; simpl in HF; try lia.
    - cbn [map par fold_right]. now destruct x1, x2.
    - cbn [map par fold_right fst snd]. destruct (HM a b (or_introl eq_refl)) as [Ar _]. rewrite (Ar F), (Hab a b (or_introl eq_refl)).
      destruct (leg_odd pos2 b), (earrow (edge_named (legs_of t2) b)), x1, x2; reflexivity.
  Qed.

  Theorem swap_sum : forall pos, assigns pos (free1 ++ free2) (map (coord pos) (free1 ++ free2)) ->
    in_range (mp t1 free1 ++ mp t2 free2) (map (coord pos) (free1 ++ free2)) ->
    signed ropp (exchanged_odd (leg_odd pos) (free2 ++ free1) (free1 ++ free2)) (signed_sum t2 t1 (swapped pairs) pos) = signed_sum t1 t2 pairs pos.
  Proof.
    intros pos Ha Hr. rewrite swapped_sum.
    rewrite map_app in Hr. apply in_range_app in Hr as [Hr1 Hr2]; [|now rewrite !map_length].
    assert (A1 : assigns pos free1 (map (coord pos) free1)) by (eapply assigns_perm; [exact Ha|]; intros n Hn; apply in_or_app; auto).
    assert (A2 : assigns pos free2 (map (coord pos) free2)) by (eapply assigns_perm; [exact Ha|]; intros n Hn; apply in_or_app; auto).
    destruct (bool_dec (@is_fermi S SS) true) as [F|F].
    - rewrite (signed_sum_out EA (HN F)), map_map. apply (rsum_ext). intros pt Hpt. cbv zeta.
      apply in_points in Hpt. assert (Hpt' : in_range (mp t1 (map fst pairs)) pt) by (rewrite map_map; exact Hpt).
      pose proof (proj1 (pairs_range pt) Hpt') as Hpt2.
      destruct (term_pos t1 (map fst pairs) pos pt W1 N1 P1 A1 Hr1 Hpt') as [B1 [B2 [B3 B4]]].
      destruct (term_pos t2 (map snd pairs) pos _ W2 N2 P2 A2 Hr2 Hpt2) as [C1 [C2 [C3 C4]]].
      set (pos1 := combine (map fst pairs) pt ++ pos) in *. set (pos2 := combine (map snd pairs) (map opposite pt) ++ pos) in *.
      destruct (element_conserved t1 pos1 W1 B1 B2) as [Z|Z1]; [rewrite Z, (ea_mul_0 _ EA), !(signed_zero EA (HN F)); reflexivity|].
      destruct (element_conserved t2 pos2 W2 C1 C2) as [Z|Z2]; [rewrite Z, (ea_mul_comm _ EA), (ea_mul_0 _ EA), !(signed_zero EA (HN F)); reflexivity|].
      rewrite (ExchangeFacts.signed_signed EA (HN F)). apply signed_parity. apply (swap_parity F); auto.
      + rewrite <- odd_total by (now apply assigns_found). rewrite Z1. apply sodd_0.
      + rewrite <- odd_total by (now apply assigns_found). rewrite Z2. apply sodd_0.
      + intros a b Hab.
        assert (F1 : mfind a pos1 <> None) by (apply (assigns_found _ _ B1), P1, in_map_iff; now exists (a, b)).
        assert (F2 : mfind b pos2 <> None) by (apply (assigns_found _ _ C1), P2, in_map_iff; now exists (a, b)).
        assert (Hc : coord pos2 b = opposite (coord pos1 a)).
        { rewrite <- B4 in C4. rewrite !map_map in C4. exact (proj1 map_ext_in_iff C4 (a, b) Hab). }
        revert F1 F2 Hc. unfold coord, leg_odd. destruct (mfind a pos1) as [[s i]|]; [|congruence]. destruct (mfind b pos2) as [[s' i']|]; [|congruence].
        intros _ _ H. unfold opposite in H. cbn [fst snd] in H. injection H as -> _. symmetry. apply sodd_neg.
    - apply not_true_is_false in F. rewrite (bose_exchanged F). match goal with |- signed ropp 0 ?x = _ => change (signed ropp 0 x) with x end. unfold signed_sum. f_equal. apply map_ext. intro pt. cbv zeta.
      rewrite (pair_sign_bose t1 t2 pairs F), (pair_sign_bose t2 t1 (swapped pairs) F). reflexivity.
  Qed.
End Swap.

Section SwapStated.
  Context {S R : Type} {SS : Sym S} {SL : SymLaws S} {RR : Scalar R}.
  Notation entry := (S * nat)%type.

  Lemma same_named : forall (t t' : tensor S R), wf_tensor t -> wf_tensor t' -> Permutation (t_names t) (t_names t') ->
    (forall n e, In (n, e) (tlegs t') <-> In (n, e) (tlegs t)) -> forall n, In n (t_names t) -> edge_named (legs_of t') n = edge_named (legs_of t) n.
  Proof.
    intros t t' W W' Hp H n Hn. destruct (leg_of_name t n W Hn) as [e He]. unfold legs_of. rewrite (leg_named t n e W He). apply leg_named; [exact W'|]. now apply H.
  Qed.
  Lemma same_valid : forall (t t' : tensor S R) pos pt pt', wf_tensor t -> wf_tensor t' -> Permutation (t_names t) (t_names t') ->
    (forall n e, In (n, e) (tlegs t') <-> In (n, e) (tlegs t)) -> assigns pos (t_names t) pt -> assigns pos (t_names t') pt' ->
    (valid_pt (t_core t') pt' <-> valid_pt (t_core t) pt).
  Proof.
    intros t t' pos pt pt' W W' Hp H Ha Ha'. unfold valid_pt. split; intros [H1 H2].
    - destruct (same_legs_range t t' pos pt' W W' H Ha' H1) as [q [Q1 [Q2 Q3]]]. rewrite (assigns_coord _ _ _ Ha), <- (assigns_coord _ _ _ Q1). split; [exact Q2|]. now rewrite (Q3 Hp).
    - destruct (same_legs_range t' t pos pt W' W (fun n e => iff_sym (H n e)) Ha H1) as [q [Q1 [Q2 Q3]]]. rewrite (assigns_coord _ _ _ Ha'), <- (assigns_coord _ _ _ Q1). split; [exact Q2|]. now rewrite (Q3 (Permutation_sym Hp)).
  Qed.

  Lemma contract_swap : @is_nosym S SS = false -> exact_arithmetic R -> (is_fermi = true -> exact_negation R) ->
    forall (E E' E'' : @env R) (I I' : internal) (t1 t2 : tensor S R) pairs, i_contract_1 I <> i_contract_2 I -> i_contract_1 I' <> i_contract_2 I' ->
    wf_tensor t1 -> wf_tensor t2 -> t_blocks t1 <> [] -> t_blocks t2 <> [] -> length pairs <= 1 \/ (forall s : S, sneg s = s) -> (is_fermi = true -> length pairs <= 1) ->
    incl (map fst pairs) (t_names t1) -> incl (map snd pairs) (t_names t2) -> NoDup (map fst pairs) -> NoDup (map snd pairs) ->
    (forall a b, In (a, b) pairs -> (is_fermi = true -> earrow (edge_named (legs_of t1) a) = negb (earrow (edge_named (legs_of t2) b))) /\
       forall s d, In (s, d) (emap (edge_named (legs_of t1) a)) <-> In (sneg s, d) (emap (edge_named (legs_of t2) b))) ->
    NoDup (free_names (t_names t1) (map fst pairs) ++ free_names (t_names t2) (map snd pairs)) ->
    (is_fermi = true -> forall E0, E0 = E \/ E0 = E' ->
      group_arrow_known (env_arrow E0) t1 (free_names (t_names t1) (map fst pairs)) /\ group_arrow_known (env_arrow E0) t1 (map fst pairs) /\
      group_arrow_known (env_arrow E0) t2 (free_names (t_names t2) (map snd pairs)) /\ group_arrow_known (env_arrow E0) t2 (map snd pairs)) ->
    exists r12 r21 r, contract E I t1 t2 pairs = Ok r12 /\ contract E' I' t2 t1 (swapped pairs) = Ok r21 /\
      transpose E'' r21 (t_names r12) = Ok r /\ t_names r = t_names r12 /\
      forall pos pt, assigns pos (t_names r12) pt -> (valid_pt (t_core r) pt <-> valid_pt (t_core r12) pt) /\
        (valid_pt (t_core r12) pt -> exists v, const_at r12 pos = Ok v /\ const_at r pos = Ok v).
  Proof.
    intros Ns EA HN E E' E'' I I' t1 t2 pairs HI HI' W1 W2 B1 B2 HP HF P1 P2 N1 N2 HM HD HK.
    destruct (contract_at Ns EA HN E I t1 t2 pairs HI W1 W2 B1 HP HF P1 P2 N1 N2 HM HD (fun F => HK F E (or_introl eq_refl))) as [r12 [H1 [H2 [H3 [H4 [_ [_ H7]]]]]]].
    destruct (contract_at Ns EA HN E' I' t2 t1 (swapped pairs)) as [r21 [G1 [G2 [G3 [G4 [_ [_ G7]]]]]]]; auto.
    { now rewrite map_length. } { rewrite map_length. exact HF. } { now rewrite swapped_fst. } { now rewrite swapped_snd. } { now rewrite swapped_fst. } { now rewrite swapped_snd. }
    { intros b a Hab. apply in_map_iff in Hab as [[a' b'] [Heq Hab]]. injection Heq as <- <-. destruct (HM _ _ Hab) as [Ar Hm]. split.
      - intro F. rewrite (Ar F). now rewrite negb_involutive.
      - intros s d. rewrite (Hm (sneg s) d), sneg_invol. reflexivity. }
    { rewrite swapped_fst, swapped_snd. now apply (Permutation_NoDup (Permutation_app_comm _ _)). }
    { rewrite swapped_fst, swapped_snd. intro F. destruct (HK F E' (or_intror eq_refl)) as [K1 [K2 [K3 K4]]]. auto. }
    rewrite swapped_fst, swapped_snd in G3, G4.
    assert (Hp : Permutation (t_names r21) (t_names r12)) by (rewrite G3, H3; apply Permutation_app_comm).
    destruct (transpose_named E'' r21 (t_names r12) G2 Hp) as [r [T1 [T2 [T3 [T4 T5]]]]].
    exists r12, r21, r. split; [exact H1|]. split; [exact G1|]. split; [exact T1|]. split; [exact T3|].
    intros pos pt Ha.
    assert (Ha21 : assigns pos (t_names r21) (map (coord pos) (t_names r21))).
    { eapply assigns_perm; [exact Ha|]. intros n Hn. eapply Permutation_in; eauto. }
    assert (V21 : valid_pt (t_core r21) (map (coord pos) (t_names r21)) <-> valid_pt (t_core r12) pt).
    { rewrite G4, H4, G3. rewrite (assigns_coord _ _ _ Ha), H3. rewrite !map_app.
      assert (X : forall (m1 m2 : list (list entry)) p1 p2, length p1 = length m1 -> length p2 = length m2 -> (in_range (m2 ++ m1) (p2 ++ p1) <-> in_range (m1 ++ m2) (p1 ++ p2))).
      { clear. intros m1 m2 p1 p2 L1 L2. rewrite !in_range_app by assumption. tauto. }
      rewrite X by (now rewrite !map_length). rewrite !ssum_app, (sadd_comm (ssum (map fst (map (coord pos) (free_names (t_names t2) (map snd pairs)))))). reflexivity. }
    split.
    { rewrite <- V21. apply (same_valid r21 r pos); auto. - now rewrite T3. - now rewrite T3. }
    intro Hv. assert (Hv21 := proj2 V21 Hv). destruct (T5 pos _ Ha21 Hv21) as [v [X1 X2]]. rewrite (G7 pos _ Ha21 Hv21) in X1. injection X1 as <-.
    exists (signed_sum t1 t2 pairs pos). split; [exact (H7 pos pt Ha Hv)|]. rewrite X2. f_equal. rewrite G3, H3.
    apply H4 in Hv as [Hv1 _]. rewrite (assigns_coord _ _ _ Ha), H3 in Hv1.
    apply (swap_sum EA HN t1 t2 pairs W1 W2 HF P1 P2 N1 N2 HM HD); [|exact Hv1]. rewrite H3 in Ha. rewrite <- (assigns_coord _ _ _ Ha). exact Ha.
  Qed.
End SwapStated.

Section Transposed.
  Context {S R : Type} {SS : Sym S} {SL : SymLaws S} {RR : Scalar R}.
  Notation entry := (S * nat)%type.
  Hypothesis EA : exact_arithmetic R.
  Hypothesis HN : is_fermi = true -> exact_negation R.

  (** t' is a transposed t *)
  Definition moved (t t' : tensor S R) : Prop := wf_tensor t' /\ Permutation (t_names t) (t_names t') /\
    (forall n e, In (n, e) (tlegs t') <-> In (n, e) (tlegs t)) /\
    forall pos pt, assigns pos (t_names t) pt -> valid_pt (t_core t) pt ->
      exists v, const_at t pos = Ok v /\ const_at t' pos = Ok (signed ropp (exchanged_odd (leg_odd pos) (t_names t) (t_names t')) v).

  Lemma moved_blocks : forall t t', wf_tensor t -> moved t t' -> t_blocks t <> [] -> t_blocks t' <> [].
  Proof.
    intros t t' W [W' [Hp [Hl _]]] B B'.
    destruct (t_blocks t) as [|[key data] bl] eqn:Eb; [congruence|].
    assert (Hk : In (key, length data) (block_list (maps_of (t_edges t)))).
    { change (t_edges t) with (c_edges (t_core t)). rewrite <- (wf_shape _ (wf_tcore _ W)). change (c_blocks (t_core t)) with (t_blocks t). rewrite Eb. now left. }
    apply in_block_list in Hk as [Hk _].
    assert (He : forall n e, In (n, e) (tlegs t') -> emap e = []).
    { intros n e Hin. destruct (emap e) as [|[s d] m] eqn:Em; [reflexivity|]. apply In_nth_error in Hin as [i Hi]. apply combine_nth_inv in Hi as [_ Hi].
      destruct (wf_pruned _ (wf_tcore _ W') i e s Hi) as [k [Hk' _]]; [rewrite Em; now left|]. change (c_blocks (t_core t')) with (t_blocks t') in Hk'. rewrite B' in Hk'. contradiction. }
    destruct (t_names t) as [|n ns] eqn:En.
    - apply Permutation_nil in Hp. pose proof (wf_rank _ W') as L. rewrite Hp in L. destruct (t_edges t') as [|? ?] eqn:E'; [|discriminate].
      pose proof (wf_shape _ (wf_tcore _ W')) as Hs. change (c_edges (t_core t')) with (t_edges t') in Hs. rewrite E' in Hs. change (c_blocks (t_core t')) with (t_blocks t') in Hs. rewrite B' in Hs.
      assert (X : In ([] : list S, 1) (block_list (maps_of ([] : list (edge S))))) by (apply in_block_list; split; [constructor|reflexivity]). rewrite <- Hs in X. contradiction.
    - destruct (t_edges t) as [|e es] eqn:Ee; [pose proof (wf_rank _ W) as L; rewrite En, Ee in L; discriminate|].
      assert (Hin : In (n, e) (tlegs t')) by (apply Hl; try rewrite En; try rewrite Ee; now left). apply He in Hin. cbn [maps_of map] in Hk. rewrite Hin in Hk. inversion Hk; subst. contradiction.
  Qed.

  Lemma moved_element : forall t t' pos, wf_tensor t -> moved t t' -> assigns pos (t_names t) (map (coord pos) (t_names t)) ->
    in_range (maps_of (t_edges t)) (map (coord pos) (t_names t)) ->
    element t' pos = signed ropp (exchanged_odd (leg_odd pos) (t_names t) (t_names t')) (element t pos).
  Proof.
    intros t t' pos W [W' [Hp [Hl He]]] Ha Hr. destruct (eqb (ssum (map fst (map (coord pos) (t_names t)))) szero) eqn:Hz.
    - apply eqb_eq in Hz. destruct (He pos _ Ha (conj Hr Hz)) as [v [X1 X2]]. unfold element. now rewrite X1, X2.
    - assert (Hz' : ssum (map fst (map (coord pos) (t_names t))) <> szero) by (intro Hc; rewrite Hc, eqb_refl in Hz; discriminate).
      destruct (same_legs_range t' t pos _ W' W (fun n e => iff_sym (Hl n e)) Ha Hr) as [q [Q1 [Q2 Q3]]].
      unfold element. rewrite (const_at_forbidden t pos _ W Ha Hr Hz'). rewrite (const_at_forbidden t' pos q W' Q1 Q2).
      + destruct (bool_dec (@is_fermi S SS) true) as [F|F]; [symmetry; apply (signed_zero EA (HN F))|]. apply not_true_is_false in F. now rewrite (bose_exchanged F).
      + rewrite (Q3 (Permutation_sym Hp)). exact Hz'.
  Qed.

  Lemma exchanged_ext : forall f g l l', (forall n, In n l -> f n = g n) -> exchanged_odd f l l' = exchanged_odd g l l'.
  Proof.
    clear. intros f g l l' H. unfold exchanged_odd. f_equal. apply filter_ext_in. intros [x y] Hp. cbn [fst snd].
    apply in_ordered_pairs in Hp as [i [j [_ [H1 H2]]]]. rewrite (H x), (H y); [reflexivity|eapply nth_error_In; eauto|eapply nth_error_In; eauto].
  Qed.

  Lemma free_moved : forall l l' cs, Permutation l l' -> Permutation (free_names l cs) (free_names l' cs).
  Proof.
    clear. intros l l' cs H. unfold free_names. induction H; cbn [filter].
    - constructor. - destruct (negb (member x cs)); auto. - destruct (negb (member x cs)), (negb (member y cs)); auto; constructor. - eapply perm_trans; eauto.
  Qed.

  (** the exchanges of one operand: transposing first gives the exchange of the remaining legs *)
  Lemma moved_sign : forall odd names names' cs (front : bool), NoDup names -> Permutation names names' -> NoDup cs -> incl cs names ->
    let dest (l : list nat) := if front then cs ++ free_names l cs else free_names l cs ++ cs in
    xorb (Nat.odd (exchanged_odd odd names names')) (Nat.odd (exchanged_odd odd names' (dest names'))) =
    xorb (Nat.odd (exchanged_odd odd names (dest names))) (Nat.odd (exchanged_odd odd (free_names names' cs) (free_names names cs))).
  Proof.
    clear. intros odd names names' cs front N P Nc Ic dest.
    assert (N' : NoDup names') by (eapply Permutation_NoDup; eauto).
    assert (Ic' : incl cs names') by (intros n Hn; eapply Permutation_in; eauto).
    assert (Pd : forall l, NoDup l -> incl cs l -> Permutation l (dest l)).
    { intros l Nl Il. unfold dest. destruct front; [eapply perm_trans; [|apply Permutation_app_comm]|]; now apply free_perm. }
    assert (Pf := free_moved names names' cs P).
    assert (Nf : NoDup (free_names names cs)) by (now apply NoDup_filter).
    rewrite <- exchanged_compose by auto.
    rewrite (exchanged_compose odd names (dest names) (dest names')); [|exact N|now apply Pd|].
    2: { eapply perm_trans; [apply Permutation_sym, Pd; assumption|]. eapply perm_trans; [exact P|]. now apply Pd. }
    f_equal.
    assert (B : Nat.odd (exchanged_odd odd (free_names names cs) (free_names names' cs)) = Nat.odd (exchanged_odd odd (free_names names' cs) (free_names names cs))).
    { apply xorb_eq. rewrite <- exchanged_compose; [|exact Nf|exact Pf|now apply Permutation_sym]. now rewrite exchanged_self. }
    rewrite <- B. assert (ND : NoDup (dest names)) by (eapply Permutation_NoDup; [apply Pd; assumption|exact N]).
    unfold dest in *. destruct front; rewrite exchanged_app by auto; rewrite (exchanged_self _ cs Nc); cbn [Nat.odd]; [now rewrite xorb_false_l|now rewrite xorb_false_r].
  Qed.

  Section Sum.
  Variables (t1 t2 t1' t2' : tensor S R) (pairs : list (nat * nat)).
  Hypothesis W1 : wf_tensor t1.
  Hypothesis W2 : wf_tensor t2.
  Hypothesis M1 : moved t1 t1'.
  Hypothesis M2 : moved t2 t2'.
  Hypothesis P1 : incl (map fst pairs) (t_names t1).
  Hypothesis P2 : incl (map snd pairs) (t_names t2).
  Hypothesis N1 : NoDup (map fst pairs).
  Hypothesis N2 : NoDup (map snd pairs).
  Hypothesis HM : forall a b, In (a, b) pairs -> (is_fermi = true -> earrow (edge_named (legs_of t1) a) = negb (earrow (edge_named (legs_of t2) b))) /\
       forall s d, In (s, d) (emap (edge_named (legs_of t1) a)) <-> In (sneg s, d) (emap (edge_named (legs_of t2) b)).
  Local Notation free1 := (free_names (t_names t1) (map fst pairs)).
  Local Notation free2 := (free_names (t_names t2) (map snd pairs)).
  Local Notation free1' := (free_names (t_names t1') (map fst pairs)).
  Local Notation free2' := (free_names (t_names t2') (map snd pairs)).
  Local Notation mp t l := (map (fun n => emap (edge_named (legs_of t) n)) l).
  Hypothesis HD : NoDup (free1 ++ free2).

  Theorem moved_sum : forall pos, assigns pos (free1 ++ free2) (map (coord pos) (free1 ++ free2)) ->
    in_range (mp t1 free1 ++ mp t2 free2) (map (coord pos) (free1 ++ free2)) ->
    signed ropp (exchanged_odd (leg_odd pos) (free1' ++ free2') (free1 ++ free2)) (signed_sum t1' t2' pairs pos) = signed_sum t1 t2 pairs pos.
  Proof.
    intros pos Ha Hr. rewrite map_app in Hr. apply in_range_app in Hr as [Hr1 Hr2]; [|now rewrite !map_length].
    assert (A1 : assigns pos free1 (map (coord pos) free1)) by (eapply assigns_perm; [exact Ha|]; intros n Hn; apply in_or_app; auto).
    assert (A2 : assigns pos free2 (map (coord pos) free2)) by (eapply assigns_perm; [exact Ha|]; intros n Hn; apply in_or_app; auto).
    destruct M1 as [W1' [Q1 [L1 _]]]. destruct M2 as [W2' [Q2 [L2 _]]].
    assert (Epts : map (fun p => emap (edge_named (legs_of t1') (fst p))) pairs = map (fun p => emap (edge_named (legs_of t1) (fst p))) pairs).
    { apply map_ext_in. intros p Hp. rewrite (same_named t1 t1' W1 W1' Q1 L1); [reflexivity|]. apply P1, in_map, Hp. }
    unfold signed_sum. rewrite Epts.
    assert (Hterm : forall pt, In pt (points (map (fun p => emap (edge_named (legs_of t1) (fst p))) pairs)) ->
      let pos1 := combine (map fst pairs) pt ++ pos in let pos2 := combine (map snd pairs) (map opposite pt) ++ pos in
      element t1' pos1 = signed ropp (exchanged_odd (leg_odd pos1) (t_names t1) (t_names t1')) (element t1 pos1) /\
      element t2' pos2 = signed ropp (exchanged_odd (leg_odd pos2) (t_names t2) (t_names t2')) (element t2 pos2) /\
      (forall n, In n free1 -> mfind n pos1 = mfind n pos) /\ (forall n, In n free2 -> mfind n pos2 = mfind n pos)).
    { intros pt Hpt. apply in_points in Hpt. assert (Hpt' : in_range (mp t1 (map fst pairs)) pt) by (rewrite map_map; exact Hpt).
      pose proof (proj1 (pairs_range t1 t2 pairs HM pt) Hpt') as Hpt2.
      destruct (term_pos t1 (map fst pairs) pos pt W1 N1 P1 A1 Hr1 Hpt') as [B1 [B2 [B3 B4]]].
      destruct (term_pos t2 (map snd pairs) pos _ W2 N2 P2 A2 Hr2 Hpt2) as [C1 [C2 [C3 C4]]]. cbv zeta.
      split; [now apply moved_element|]. split; [now apply moved_element|]. auto. }
    destruct (bool_dec (@is_fermi S SS) true) as [F|F].
    - rewrite (signed_sum_out EA (HN F)), map_map. apply rsum_ext. intros pt Hpt. cbv zeta. destruct (Hterm pt Hpt) as [T1 [T2 [T3 T4]]].
      set (pos1 := combine (map fst pairs) pt ++ pos) in *. set (pos2 := combine (map snd pairs) (map opposite pt) ++ pos) in *.
      rewrite T1, T2, (signed_mul EA (HN F)), !(ExchangeFacts.signed_signed EA (HN F)). apply signed_parity.
      unfold pair_sign. rewrite !odd_plus, !odd_count.
      assert (Hodd : forall (p : position) l, (forall n, In n l -> mfind n p = mfind n pos) -> forall n, In n l -> leg_odd pos n = leg_odd p n).
      { intros p l H n Hn. unfold leg_odd. unfold position in *. now rewrite (H n Hn). }
      assert (F1' : Permutation free1' free1) by (apply Permutation_sym, free_moved; exact Q1). assert (F2' : Permutation free2' free2) by (apply Permutation_sym, free_moved; exact Q2).
      rewrite exchanged_app; [|eapply Permutation_NoDup; [|exact HD]; apply Permutation_app; now apply Permutation_sym|exact F1'|exact F2'].
      rewrite (exchanged_ext (leg_odd pos) (leg_odd pos1) free1'), (exchanged_ext (leg_odd pos) (leg_odd pos2) free2').
      2: { apply (Hodd pos2). intros n Hn. apply T4. eapply Permutation_in; eauto. }
      2: { apply (Hodd pos1). intros n Hn. apply T3. eapply Permutation_in; eauto. }
      assert (X1 := moved_sign (leg_odd pos1) (t_names t1) (t_names t1') (rev (map fst pairs)) false (wf_nodup _ W1) Q1 (NoDup_rev N1) (fun n Hn => P1 n (proj2 (in_rev _ _) Hn))). cbv beta zeta iota in X1.
      assert (X2 := moved_sign (leg_odd pos2) (t_names t2) (t_names t2') (map snd pairs) true (wf_nodup _ W2) Q2 N2 P2). cbv beta zeta iota in X2.
      assert (Hfr : forall l cs, free_names l (rev cs) = free_names l cs).
      { clear. intros l cs. unfold free_names. apply filter_ext. intro n. f_equal. destruct (member n cs) eqn:Em.
        - apply member_In. apply -> in_rev. now apply member_In. - destruct (member n (rev cs)) eqn:Em'; [|reflexivity]. apply member_In in Em'. apply in_rev in Em'. apply member_In in Em'. congruence. }
      rewrite !Hfr in X1.
      assert (Har : par (fun n => negb (earrow (edge_named (legs_of t1') n)) && leg_odd pos1 n) (map fst pairs) = par (fun n => negb (earrow (edge_named (legs_of t1) n)) && leg_odd pos1 n) (map fst pairs)).
      { apply par_ext. intros n Hn. now rewrite (same_named t1 t1' W1 W1' Q1 L1 n (P1 n Hn)). }
      rewrite Har. revert X1 X2.
      generalize (Nat.odd (exchanged_odd (leg_odd pos1) (t_names t1) (t_names t1'))), (Nat.odd (exchanged_odd (leg_odd pos2) (t_names t2) (t_names t2'))),
        (Nat.odd (exchanged_odd (leg_odd pos1) free1' free1)), (Nat.odd (exchanged_odd (leg_odd pos2) free2' free2)),
        (Nat.odd (exchanged_odd (leg_odd pos1) (t_names t1') (free1' ++ rev (map fst pairs)))), (Nat.odd (exchanged_odd (leg_odd pos1) (t_names t1) (free1 ++ rev (map fst pairs)))),
        (Nat.odd (exchanged_odd (leg_odd pos2) (t_names t2') (map snd pairs ++ free2'))), (Nat.odd (exchanged_odd (leg_odd pos2) (t_names t2) (map snd pairs ++ free2))),
        (par (fun n => negb (earrow (edge_named (legs_of t1) n)) && leg_odd pos1 n) (map fst pairs)).
      clear. intros b1 b2 b3 b4 b5 b6 b7 b8 b9. intros X1 X2. destruct b1, b2, b3, b4, b5, b6, b7, b8, b9; try discriminate X1; try discriminate X2; cbn; reflexivity.
    - apply not_true_is_false in F. rewrite (bose_exchanged F). match goal with |- signed ropp 0 ?x = _ => change (signed ropp 0 x) with x end.
      apply rsum_ext. intros pt Hpt. cbv zeta. rewrite (pair_sign_bose t1 t2 pairs F), (pair_sign_bose t1' t2' pairs F). destruct (Hterm pt Hpt) as [T1 [T2 _]]. rewrite T1, T2, !(bose_exchanged F). reflexivity.
  Qed.
  End Sum.
End Transposed.

Section MovedStated.
  Context {S R : Type} {SS : Sym S} {SL : SymLaws S} {RR : Scalar R}.
  Notation entry := (S * nat)%type.
  Lemma contract_moved : @is_nosym S SS = false -> exact_arithmetic R -> (is_fermi = true -> exact_negation R) ->
    forall (E E1 E2 E' E'' : @env R) (I I' : internal) (t1 t2 : tensor S R) pairs names1 names2, i_contract_1 I <> i_contract_2 I -> i_contract_1 I' <> i_contract_2 I' ->
    wf_tensor t1 -> wf_tensor t2 -> t_blocks t1 <> [] -> length pairs <= 1 \/ (forall s : S, sneg s = s) -> (is_fermi = true -> length pairs <= 1) ->
    incl (map fst pairs) (t_names t1) -> incl (map snd pairs) (t_names t2) -> NoDup (map fst pairs) -> NoDup (map snd pairs) ->
    (forall a b, In (a, b) pairs -> (is_fermi = true -> earrow (edge_named (legs_of t1) a) = negb (earrow (edge_named (legs_of t2) b))) /\
       forall s d, In (s, d) (emap (edge_named (legs_of t1) a)) <-> In (sneg s, d) (emap (edge_named (legs_of t2) b))) ->
    NoDup (free_names (t_names t1) (map fst pairs) ++ free_names (t_names t2) (map snd pairs)) ->
    (is_fermi = true -> forall E0, E0 = E \/ E0 = E' ->
      group_arrow_known (env_arrow E0) t1 (free_names (t_names t1) (map fst pairs)) /\ group_arrow_known (env_arrow E0) t1 (map fst pairs) /\
      group_arrow_known (env_arrow E0) t2 (free_names (t_names t2) (map snd pairs)) /\ group_arrow_known (env_arrow E0) t2 (map snd pairs)) ->
    Permutation (t_names t1) names1 -> Permutation (t_names t2) names2 ->
    exists t1' t2' r r' r'', transpose E1 t1 names1 = Ok t1' /\ transpose E2 t2 names2 = Ok t2' /\
      contract E I t1 t2 pairs = Ok r /\ contract E' I' t1' t2' pairs = Ok r' /\ transpose E'' r' (t_names r) = Ok r'' /\ t_names r'' = t_names r /\
      forall pos pt, assigns pos (t_names r) pt -> (valid_pt (t_core r'') pt <-> valid_pt (t_core r) pt) /\
        (valid_pt (t_core r) pt -> exists v, const_at r pos = Ok v /\ const_at r'' pos = Ok v).
  Proof.
    intros Ns EA HN E E1 E2 E' E'' I I' t1 t2 pairs names1 names2 HI HI' W1 W2 B1 HP HF P1 P2 N1 N2 HM HD HK Q1 Q2.
    destruct (transpose_named E1 t1 names1 W1 Q1) as [t1' [X1 [X2 [X3 [X4 X5]]]]]. destruct (transpose_named E2 t2 names2 W2 Q2) as [t2' [Y1 [Y2 [Y3 [Y4 Y5]]]]].
    subst names1 names2.
    assert (M1 : moved t1 t1') by (unfold moved; auto). assert (M2 : moved t2 t2') by (unfold moved; auto).
    assert (F1 := free_moved (t_names t1) (t_names t1') (map fst pairs) Q1). assert (F2 := free_moved (t_names t2) (t_names t2') (map snd pairs) Q2).
    assert (G1 := same_named t1 t1' W1 X2 Q1 X4). assert (G2 := same_named t2 t2' W2 Y2 Q2 Y4).
    assert (J1 : forall n, In n (free_names (t_names t1) (map fst pairs)) -> In n (t_names t1)) by (intros n Hn; now apply free_not in Hn).
    assert (J2 : forall n, In n (free_names (t_names t2) (map snd pairs)) -> In n (t_names t2)) by (intros n Hn; now apply free_not in Hn).
    destruct (contract_at Ns EA HN E I t1 t2 pairs HI W1 W2 B1 HP HF P1 P2 N1 N2 HM HD (fun F => HK F E (or_introl eq_refl))) as [r [H1 [H2 [H3 [H4 [_ [_ H7]]]]]]].
    assert (KK : forall (t t' : tensor S R) o l l', Permutation l l' -> (forall n, In n l -> edge_named (legs_of t') n = edge_named (legs_of t) n) -> group_arrow_known o t l -> group_arrow_known o t' l').
    { clear. intros t t' o l l' Hp He [H|[H|[n [H1 H2]]]]; [now left|right; left; now rewrite <- (Permutation_length Hp)|right; right]. exists n. split; [eapply Permutation_in; eauto|]. now rewrite He. }
    destruct (contract_at Ns EA HN E' I' t1' t2' pairs HI') as [r' [K1 [K2 [K3 [K4 [_ [_ K7]]]]]]]; auto.
    { exact (moved_blocks t1 t1' W1 M1 B1). }
    { intros n Hn. eapply Permutation_in; [exact Q1|auto]. } { intros n Hn. eapply Permutation_in; [exact Q2|auto]. }
    { intros a b Hab. rewrite (G1 a), (G2 b); [now apply HM|apply P2, in_map_iff; now exists (a, b)|apply P1, in_map_iff; now exists (a, b)]. }
    { eapply Permutation_NoDup; [|exact HD]. now apply Permutation_app. }
    { intro F. destruct (HK F E' (or_intror eq_refl)) as [Z1 [Z2 [Z3 Z4]]]. split; [exact (KK t1 t1' _ _ _ F1 (fun n Hn => G1 n (J1 n Hn)) Z1)|]. split; [exact (KK t1 t1' _ _ _ (Permutation_refl _) (fun n Hn => G1 n (P1 n Hn)) Z2)|].
      split; [exact (KK t2 t2' _ _ _ F2 (fun n Hn => G2 n (J2 n Hn)) Z3)|exact (KK t2 t2' _ _ _ (Permutation_refl _) (fun n Hn => G2 n (P2 n Hn)) Z4)]. }
    assert (Hp : Permutation (t_names r') (t_names r)) by (rewrite K3, H3; apply Permutation_app; now apply Permutation_sym).
    destruct (transpose_named E'' r' (t_names r) K2 Hp) as [r'' [T1 [T2 [T3 [T4 T5]]]]].
    exists t1', t2', r, r', r''. split; [exact X1|]. split; [exact Y1|]. split; [exact H1|]. split; [exact K1|]. split; [exact T1|]. split; [exact T3|].
    intros pos pt Ha.
    assert (Ha' : assigns pos (t_names r') (map (coord pos) (t_names r'))).
    { eapply assigns_perm; [exact Ha|]. intros n Hn. eapply Permutation_in; eauto. }
    assert (V : valid_pt (t_core r') (map (coord pos) (t_names r')) <-> valid_pt (t_core r) pt).
    { rewrite K4, H4, K3. rewrite (assigns_coord _ _ _ Ha), H3. rewrite !map_app.
      rewrite !in_range_app by (now rewrite !map_length). rewrite !in_range_named. rewrite <- !map_app.
      assert (Es : ssum (map fst (map (coord pos) (free_names (t_names t1') (map fst pairs) ++ free_names (t_names t2') (map snd pairs)))) =
                   ssum (map fst (map (coord pos) (free_names (t_names t1) (map fst pairs) ++ free_names (t_names t2) (map snd pairs))))).
      { apply ssum_perm, Permutation_map, Permutation_map, Permutation_app; now apply Permutation_sym. }
      rewrite Es. split; intros [[A1 A2] A3]; (split; [split|exact A3]); intros n Hn.
      - rewrite <- (G1 n (J1 n Hn)). apply A1. eapply Permutation_in; eauto.
      - rewrite <- (G2 n (J2 n Hn)). apply A2. eapply Permutation_in; eauto.
      - assert (Hn' : In n (free_names (t_names t1) (map fst pairs))) by (eapply Permutation_in; [apply Permutation_sym; exact F1|exact Hn]). rewrite (G1 n (J1 n Hn')). now apply A1.
      - assert (Hn' : In n (free_names (t_names t2) (map snd pairs))) by (eapply Permutation_in; [apply Permutation_sym; exact F2|exact Hn]). rewrite (G2 n (J2 n Hn')). now apply A2. }
    split.
    { rewrite <- V. apply (same_valid r' r'' pos); auto. - now rewrite T3. - now rewrite T3. }
    intro Hv. assert (Hv' := proj2 V Hv). destruct (T5 pos _ Ha' Hv') as [v [Z1 Z2]]. rewrite (K7 pos _ Ha' Hv') in Z1. injection Z1 as <-.
    exists (signed_sum t1 t2 pairs pos). split; [exact (H7 pos pt Ha Hv)|]. rewrite Z2. f_equal. rewrite K3, H3.
    apply H4 in Hv as [Hv1 _]. rewrite (assigns_coord _ _ _ Ha), H3 in Hv1.
    apply (moved_sum EA HN t1 t2 t1' t2' pairs W1 W2 M1 M2 P1 P2 N1 N2 HM HD); [|exact Hv1]. rewrite H3 in Ha. rewrite <- (assigns_coord _ _ _ Ha). exact Ha.
  Qed.
End MovedStated.
