(** Contracting a tensor with the helper of shrink and expand. *)
From Coq Require Import String List Bool Arith Lia Permutation.
From Verif Require Import Base.Outcome Base.SMap Model.Symmetry Model.Edge Model.Core Model.EdgeOperator Model.Elementwise Model.Contract Model.ShrinkExpand
  Spec.Blocks Spec.Fuse Spec.Relabel Spec.Contract Proof.SymmetryFacts Proof.CoreFacts Proof.LoopFacts Proof.ElemFacts Proof.ConstructFacts
  Proof.NamedOperator Proof.LegFacts Proof.ContractNames Proof.SumFacts Proof.CopyLoopFacts Proof.ContractSym Proof.ContractPlain Proof.OneHotFacts.
Import ListNotations.

Section Hot.
  Context {S R : Type} {SS : Sym S} {SL : SymLaws S} {RR : Scalar R}.
  Notation entry := (S * nat)%type.
  Variable E : @env R.
  Variable I : internal.
  Variables (c : nat -> S) (d g : nat -> nat) (ar : nat -> bool).
  Local Notation eg := (fun n => mkEdge (ar n) [(c n, d n)]).
  Local Notation hot pos l := (forallb (fun n => snd (coord pos n) =? g n) l).
  Hypothesis EA : exact_arithmetic R.

  Lemma const_at_ext : forall (t : tensor S R) p q, (forall n, In n (t_names t) -> mfind n p = mfind n q) -> const_at t p = const_at t q.
  Proof.
    intros t p q H. unfold const_at. assert (Hg : get_block_and_offset p (t_names t) (t_core t) = get_block_and_offset q (t_names t) (t_core t)); [|now rewrite Hg].
    unfold get_block_and_offset. revert H. generalize (c_edges (t_core t)). generalize (t_names t). intros names es H. f_equal.
    revert es. induction names as [|n names IH]; intros [|e es]; auto. cbn [combine mapM fst snd]. rewrite (H n (or_introl eq_refl)). rewrite IH; [reflexivity|].
    intros m Hm. apply H. now right.
  Qed.

  Variables (h t : tensor S R) (ns : list nat).
  Hypotheses (Wh : wf_tensor h) (Nh : t_names h = ns) (Eh : t_edges h = map eg ns) (Bh : t_blocks h <> []) (Zh : ssum (map c ns) = szero)
    (Hg : forall n, In n ns -> g n < d n) (Wt : wf_tensor t)
    (Hh : forall pos, (forall n, In n ns -> exists i, mfind n pos = Some (c n, i) /\ i < d n) -> const_at h pos = Ok (if hot pos ns then rone else rzero)).
  Local Notation C := (filter (fun n => member n (t_names t)) ns).
  Hypothesis Hc : forall n, In n ns -> In n (t_names t) -> emap (edge_named (legs_of t) n) = [(sneg (c n), d n)].

  Lemma ns_nodup : NoDup ns.
  Proof. rewrite <- Nh. apply Wh. Qed.
  Lemma in_C : forall n, In n C <-> In n ns /\ In n (t_names t).
  Proof. intro n. rewrite filter_In. now rewrite (mem_name_In n (t_names t)). Qed.
  Lemma in_free : forall l m n, In n (free_names l m) <-> In n l /\ ~ In n m.
  Proof. intros l m n. unfold free_names. rewrite filter_In, negb_true_iff. now rewrite <- (mem_name_false n m). Qed.
  Lemma C_nodup : NoDup C.
  Proof. apply NoDup_filter, ns_nodup. Qed.
  Lemma all_edge_pairs : contract_all_edge E I h t = contract E I h t (map (fun n => (n, n)) C).
  Proof.
    unfold contract_all_edge. rewrite contract_missing, Nh. f_equal.
    assert (H : forall l, incl l ns -> filter (fun p => member (fst p) ns && member (snd p) (t_names t)) (map (fun n => (n, n)) l) = map (fun n => (n, n)) (filter (fun n => member n (t_names t)) l)).
    { induction l as [|n l IH]; intro Hi; [reflexivity|]. cbn [map filter fst snd]. rewrite (proj2 (member_In n ns)) by (apply Hi; now left). cbn [andb].
      rewrite IH by (intros x Hx; apply Hi; now right). now destruct (member n (t_names t)). }
    apply H. intros x Hx. exact Hx.
  Qed.
  Lemma dup_fst : forall l : list nat, map fst (map (fun n => (n, n)) l) = l.
  Proof. intro l. rewrite map_map. cbn [fst]. apply map_id. Qed.
  Lemma dup_snd : forall l : list nat, map snd (map (fun n => (n, n)) l) = l.
  Proof. intro l. rewrite map_map. cbn [snd]. apply map_id. Qed.
  Lemma t_perm : Permutation (t_names t) (C ++ free_names (t_names t) C).
  Proof.
    apply NoDup_Permutation; [apply Wt| |].
    - apply NoDup_app_intro; [apply C_nodup|apply NoDup_filter, Wt|]. intros x Hx Hy. apply in_free in Hy. tauto.
    - intro n. rewrite in_app_iff, in_C, in_free, in_C. destruct (in_dec Nat.eq_dec n ns); tauto.
  Qed.
  Lemma h_perm : Permutation ns (C ++ free_names ns C).
  Proof.
    apply NoDup_Permutation; [apply ns_nodup| |].
    - apply NoDup_app_intro; [apply C_nodup|apply NoDup_filter, ns_nodup|]. intros x Hx Hy. apply in_free in Hy. tauto.
    - intro n. rewrite in_app_iff, in_C, in_free, in_C. destruct (in_dec Nat.eq_dec n (t_names t)); tauto.
  Qed.
  (** the configured coordinates followed by those of the result *)
  Local Notation rest := (free_names ns C).
  Local Notation ft := (free_names (t_names t) C).
  Local Notation full pos := (combine C (map (fun n => (sneg (c n), g n)) C) ++ pos).
  Lemma full_C : forall pos n, In n C -> mfind n (full pos) = Some (sneg (c n), g n).
  Proof.
    intros pos n Hin. rewrite mfind_app. destruct (find_combine C (map (fun n => (sneg (c n), g n)) C) n C_nodup (eq_sym (map_length _ _)) Hin) as [x [Hx Hi]]. rewrite Hx. f_equal.
    clear - Hi. induction C as [|m l IH]; [destruct Hi|]. cbn [map combine] in Hi. destruct Hi as [Hi|Hi]; [now injection Hi as <- <-|auto].
  Qed.
  Lemma full_rest : forall pos n, ~ In n C -> mfind n (full pos) = mfind n pos.
  Proof. intros pos n Hin. rewrite mfind_app, find_combine_none; auto. now rewrite map_length. Qed.

  Lemma selected : forall pos pt, assigns pos (rest ++ ft) pt ->
    in_range (map (fun n => [(c n, d n)]) rest ++ map (fun n => emap (edge_named (legs_of t) n)) ft) pt -> ssum (map fst pt) = szero ->
    Ok (contract_sum h t (map (fun n => (n, n)) C) pos) = if hot pos rest then const_at t (full pos) else Ok rzero.
  Proof.
    intros pos pt Ha Hr Hz. pose proof (assigns_coord _ _ _ Ha) as Hpt. rewrite map_app in Hpt.
    assert (HR : in_range (map (fun n => [(c n, d n)]) rest) (map (coord pos) rest) /\ in_range (map (fun n => emap (edge_named (legs_of t) n)) ft) (map (coord pos) ft)).
    { rewrite Hpt in Hr. apply in_range_app in Hr; [exact Hr|now rewrite !map_length]. }
    destruct HR as [HR1 HR2].
    assert (Hfound : forall n, In n (rest ++ ft) -> mfind n pos = Some (coord pos n)).
    { intros n Hin. unfold assigns in Ha. unfold coord. destruct (mfind n pos) eqn:En; [reflexivity|]. exfalso.
      assert (Hx : In None (map (fun n => mfind n pos) (rest ++ ft))) by (rewrite <- En; now apply (in_map (fun n => mfind n pos))).
      rewrite Ha in Hx. apply in_map_iff in Hx as [y [Hy _]]. discriminate Hy. }
    rewrite (select c d g ar EA h t ns C Wh Nh Eh Hg C_nodup (fun x Hx => proj1 (proj1 (in_C x) Hx)) Hh).
    2:{ intros n Hin. destruct (proj1 (in_range_named _ _ _) HR1 n Hin) as [k [[Hk|[]] Hlt]]. injection Hk as Hk1 Hk2. subst k. exists (snd (coord pos n)). split; [|exact Hlt].
        rewrite Hfound by (apply in_or_app; now left). rewrite Hk1. now rewrite <- surjective_pairing. }
    destruct (hot pos rest) eqn:Eh'; [|reflexivity]. unfold element.
    assert (HV : exists v, const_at t (full pos) = Ok v); [|destruct HV as [v ->]; reflexivity].
    set (co := coord (full pos)).
    assert (CoC : forall n, In n C -> co n = (sneg (c n), g n)) by (intros n Hin; unfold co, coord; now rewrite full_C).
    assert (CoF : forall n, In n ft -> co n = coord pos n) by (intros n Hin; apply in_free in Hin as [_ Hin]; unfold co, coord; now rewrite full_rest).
    destruct (const_at_elem t (full pos) (map co (t_names t)) Wt) as [v [_ Hv]]; [| |eauto].
    - unfold assigns. rewrite map_map. apply map_ext_in. intros n Hin. unfold co, coord. destruct (in_dec Nat.eq_dec n C) as [Hx|Hx]; [now rewrite full_C|].
      rewrite full_rest by exact Hx. rewrite Hfound; [reflexivity|]. apply in_or_app. right. now apply in_free.
    - split.
      + change (c_edges (t_core t)) with (t_edges t). rewrite <- (legs_to_edges t Wt). unfold maps_of. rewrite map_map. apply in_range_named. intros n Hin.
        destruct (in_dec Nat.eq_dec n C) as [Hx|Hx].
        * rewrite CoC by exact Hx. apply in_C in Hx as [Hx _]. cbn [fst snd]. exists (d n). split; [|now apply Hg]. unfold legs_of in Hc. rewrite (Hc n Hx Hin). now left.
        * assert (Hf : In n ft) by (now apply in_free). rewrite CoF by exact Hf. exact (proj1 (in_range_named _ _ _) HR2 n Hf).
      + rewrite map_map. rewrite (ssum_perm (map (fun n => fst (co n)) (t_names t)) (map (fun n => fst (co n)) (C ++ ft))) by (apply Permutation_map, t_perm).
        rewrite map_app, ssum_app. rewrite (map_ext_in _ (fun n => sneg (c n)) C) by (intros n Hin; now rewrite CoC).
        rewrite (map_ext_in (fun n => fst (co n)) (fun n => fst (coord pos n)) ft) by (intros n Hin; now rewrite CoF).
        rewrite Hpt, map_app, ssum_app, !map_map in Hz. rewrite (map_ext_in (fun n => fst (coord pos n)) c rest) in Hz.
        2:{ intros n Hin. destruct (proj1 (in_range_named _ _ _) HR1 n Hin) as [k [[Hk|[]] _]]. now injection Hk. }
        rewrite (ssum_perm (map c ns) (map c (C ++ rest))) in Zh by (apply Permutation_map, h_perm). rewrite map_app, ssum_app in Zh.
        rewrite <- map_map with (g := sneg) (f := c). rewrite ssum_neg.
        apply sadd_eq_0 in Zh. rewrite Zh in Hz. exact Hz.
  Qed.
  Lemma edges_h : map (fun n => emap (edge_named (legs_of h) n)) rest = map (fun n => [(c n, d n)]) rest.
  Proof. apply map_ext_in. intros n Hin. apply in_free in Hin as [Hin _]. rewrite (hot_named c d ar h ns Wh Nh Eh n Hin). reflexivity. Qed.

  Lemma hot_plain : @is_nosym S SS = true -> @is_fermi S SS = false -> NoDup [i_contract_0 I; i_contract_1 I; i_contract_2 I] -> t_blocks t <> [] ->
    exists r, contract_all_edge E I h t = Ok r /\ wf_tensor r /\ t_blocks r <> [] /\ t_names r = rest ++ ft /\
      t_edges r = map eg rest ++ map (edge_named (legs_of t)) ft /\
      forall pos pt, assigns pos (t_names r) pt -> valid_pt (t_core r) pt -> const_at r pos = if hot pos rest then const_at t (full pos) else Ok rzero.
  Proof.
    intros Ns Nf NI Bt. rewrite all_edge_pairs.
    destruct (contract_plain_at Ns Nf EA E I h t (map (fun n => (n, n)) C) NI Wh Wt Bh Bt) as [r [fused [H1 [H2 [H3 [H4 [H5 [H6 [H7 H8]]]]]]]]]; rewrite ?dup_fst, ?dup_snd.
    - rewrite Nh. intros n Hin. now apply in_C in Hin.
    - intros n Hin. now apply in_C in Hin.
    - apply C_nodup.
    - apply C_nodup.
    - intros a b Hin. apply in_map_iff in Hin as [n [Hn Hin]]. injection Hn as <- <-. apply in_C in Hin as [Hi1 Hi2]. rewrite (hot_named c d ar h ns Wh Nh Eh n Hi1), (Hc n Hi1 Hi2). cbn [emap].
      rewrite (nosym_unit Ns (sneg (c n))), (nosym_unit Ns (c n)). reflexivity.
    - intros n Hi1 Hi2 Hx _. exfalso. apply Hx. rewrite Nh in Hi1. now apply in_C.
    - rewrite dup_fst, dup_snd in *.
      assert (HF : fused = []).
      { destruct fused as [|n fused]; [reflexivity|exfalso]. destruct (proj1 (H5 n) (or_introl eq_refl)) as [Hi1 [Hi2 [Hx _]]]. apply Hx. rewrite Nh in Hi1. now apply in_C. }
      subst fused. rewrite app_nil_r, Nh in H6, H7. cbn [app] in H6, H7.
      assert (HE : map (edge_named (legs_of h)) rest = map eg rest).
      { apply map_ext_in. intros n Hin. apply in_free in Hin as [Hin _]. exact (hot_named c d ar h ns Wh Nh Eh n Hin). }
      rewrite HE in H7. exists r. do 5 (split; [assumption|]).
      intros pos pt Ha Hv. rewrite (H8 pos pt Ha Hv). rewrite H6 in Ha. destruct Hv as [Hv Hz]. change (c_edges (t_core r)) with (t_edges r) in Hv. rewrite H7 in Hv. unfold maps_of in Hv. rewrite map_app, !map_map in Hv.
      apply (selected pos pt Ha Hv Hz).
  Qed.
  Lemma hot_sym : @is_nosym S SS = false -> @is_fermi S SS = false -> i_contract_1 I <> i_contract_2 I -> length C <= 1 \/ (forall s : S, sneg s = s) ->
    exists r, contract_all_edge E I h t = Ok r /\ wf_tensor r /\ t_names r = rest ++ ft /\
      (forall pt, valid_pt (t_core r) pt <-> in_range (map (fun n => [(c n, d n)]) rest ++ map (fun n => emap (edge_named (legs_of t) n)) ft) pt /\ ssum (map fst pt) = szero) /\
      forall pos pt, assigns pos (t_names r) pt -> valid_pt (t_core r) pt -> const_at r pos = if hot pos rest then const_at t (full pos) else Ok rzero.
  Proof.
    intros Ns Nf NI HP. rewrite all_edge_pairs.
    destruct (contract_sym_at Ns Nf EA E I h t (map (fun n => (n, n)) C) NI Wh Wt Bh) as [r [H1 [H2 [H3 [H4 H5]]]]]; rewrite ?dup_fst, ?dup_snd.
    - rewrite Nh. intros n Hin. now apply in_C in Hin.
    - intros n Hin. now apply in_C in Hin.
    - apply C_nodup.
    - apply C_nodup.
    - intros a b s k Hin. apply in_map_iff in Hin as [n [Hn Hin]]. injection Hn as <- <-. apply in_C in Hin as [Hi1 Hi2]. rewrite (hot_named c d ar h ns Wh Nh Eh n Hi1), (Hc n Hi1 Hi2). cbn [emap].
      split; intros [H|[]]; injection H as H <-.
      + subst s. now left.
      + apply sneg_inj in H. subst s. now left.
    - now rewrite map_length.
    - rewrite Nh. apply NoDup_app_intro; [apply NoDup_filter, ns_nodup|apply NoDup_filter, Wt|]. intros n Hi1 Hi2. apply in_free in Hi1, Hi2. rewrite in_C in Hi1. tauto.
    - rewrite dup_fst, dup_snd, Nh, edges_h in *. exists r. do 4 (split; [assumption|]).
      intros pos pt Ha Hv. rewrite (H5 pos pt Ha Hv). apply H4 in Hv as [Hv Hz]. rewrite H3 in Ha. apply (selected pos pt Ha Hv Hz).
  Qed.
End Hot.
