(** Tensors without symmetry: working with edges listed explicitly; qr and svd as identities between sums. *)
From Coq Require Import String Ascii List Bool Arith Lia Permutation.
From Verif Require Import Base.Outcome Base.SMap Model.Symmetry Model.Edge Model.Core Model.EdgeOperator Model.Contract Model.Misc Model.Qr Model.Svd
  Spec.Blocks Spec.Fuse Spec.Relabel Spec.Contract Spec.FermiContract Spec.Plain Spec.Lapack Spec.Factor Spec.Truncate Spec.Spectrum Spec.Svd Proof.SymmetryFacts Proof.LoopFacts Proof.CoreFacts Proof.ElemFacts Proof.LegFacts Proof.SumFacts
  Proof.TransposeNames Proof.RenameFacts Proof.RegroupFacts Proof.ContractNames Proof.ContractPlain Proof.HotContract Proof.MultipleFacts Proof.QrProps Proof.SvdProps Proof.PlainFacts.
Import ListNotations.

(** conditions on lists of names that are decided by computing *)
Fixpoint nodupb (l : list nat) : bool := match l with [] => true | x :: l => negb (member x l) && nodupb l end.
Definition disjointb (l l' : list nat) : bool := forallb (fun x => negb (member x l')) l.
Lemma member_iff : forall n l, member n l = true <-> In n l.
Proof. intros. apply mem_name_In. Qed.
Lemma nodupb_ok : forall l, nodupb l = true -> NoDup l.
Proof.
  induction l as [|x l IH]; cbn [nodupb]; intro H; [constructor|]. apply andb_true_iff in H as [H1 H2]. constructor; [|now apply IH].
  intro Q. apply member_iff in Q. now rewrite Q in H1.
Qed.
Lemma disjointb_ok : forall l l', disjointb l l' = true -> forall n, In n l -> In n l' -> False.
Proof. intros l l' H n A B. unfold disjointb in H. rewrite forallb_forall in H. specialize (H n A). apply member_iff in B. now rewrite B in H. Qed.

Lemma slots_same : forall K K', Forall (fun k => slot K k = slot K' k) (keys K ++ keys K') -> forall n, slot K n = slot K' n.
Proof.
  intros K K' H n. rewrite Forall_forall in H. destruct (in_dec Nat.eq_dec n (keys K ++ keys K')) as [I|I]; [now apply H|].
  assert (G : forall L, ~ In n (keys L) -> slot L n = None).
  { intros L Hn. unfold slot. destruct (mfind n L) as [o|] eqn:F; [|reflexivity]. apply mfind_In in F. destruct Hn. exact (in_map fst _ _ F). }
  rewrite !G; [reflexivity| |]; intro Q; apply I; apply in_or_app; auto.
Qed.
Lemma in_slots_all : forall K a, Forall (fun k => index a k < size (slot K k) \/ slot K k = None) (keys K) -> in_slots K a.
Proof.
  intros K a H n. rewrite Forall_forall in H. destruct (slot K n) eqn:Q; [|now right]. left. specialize (H n). rewrite Q in H. destruct H as [H|H]; [apply slot_keys; congruence|exact H|discriminate].
Qed.
Lemma in_slots_at : forall K a n, in_slots K a -> slot K n <> None -> index a n < size (slot K n).
Proof. intros K a n H Hn. destruct (H n); congruence. Qed.

Section Tools.
  Context {R : Type} {RR : Scalar R}.
  Implicit Types t r : tensor unit R.
  Hypothesis EA : exact_arithmetic R.
  Variables (E : @env R) (J : internal).
  Hypothesis HJ : NoDup [i_contract_0 J; i_contract_1 J; i_contract_2 J].

  Lemma has_same : forall t K K', has t K -> Forall (fun k => slot K k = slot K' k) (keys K ++ keys K') -> has t K'.
  Proof. intros t K K' H F. apply (has_ext t K K' H). now apply slots_same. Qed.
  Lemma value_keys : forall t K a b, has t K -> Forall (fun k => slot K k = None \/ index a k = index b k) (keys K) -> value t a = value t b.
  Proof. intros t K a b H F. apply (value_ext t K a b H). rewrite Forall_forall in F. intros n Hn. destruct (F n (slot_keys K n Hn)); congruence. Qed.
  Lemma rename_keys_has : forall t K dict, has t K -> nodupb (map (rename_one dict) (keys K)) = true ->
    has (edge_rename t dict) (map (fun p => (rename_one dict (fst p), snd p)) K).
  Proof. intros. apply rename_has; auto. now apply nodupb_ok. Qed.
  Lemma rename_keys_value : forall t K dict a b, has t K -> nodupb (map (rename_one dict) (keys K)) = true ->
    Forall (fun k => slot K k = None \/ index b k = index a (rename_one dict k)) (keys K) -> value (edge_rename t dict) a = value t b.
  Proof.
    intros t K dict a b H N F. apply (rename_value t K dict a b H); [now apply nodupb_ok|]. rewrite Forall_forall in F. intros n Hn. destruct (F n (slot_keys K n Hn)); congruence.
  Qed.
  Lemma contract_keys : forall t1 t2 K1 K2 pairs, has t1 K1 -> has t2 K2 -> nodupb (map fst pairs) = true -> nodupb (map snd pairs) = true ->
    Forall (fun p => slot K1 (fst p) = slot K2 (snd p)) pairs ->
    disjointb (keys (without (map fst pairs) K1)) (keys (without (map snd pairs) K2)) = true ->
    exists r, contract E J t1 t2 pairs = Ok r /\ has r (without (map fst pairs) K1 ++ without (map snd pairs) K2) /\
      forall a, in_slots (without (map fst pairs) K1 ++ without (map snd pairs) K2) a ->
        value r a = Sums (map (fun p => size (slot K1 (fst p))) pairs) (product t1 t2 pairs a).
  Proof.
    intros t1 t2 K1 K2 pairs H1 H2 N1 N2 F D. apply (contract_has EA E J HJ); auto using nodupb_ok; [|now apply disjointb_ok].
    intros a b Hab. rewrite Forall_forall in F. exact (F (a, b) Hab).
  Qed.

  (** a tensor with the same names, dimensions and data *)
  Lemma same_value : forall t t' K, has t K -> t_names t' = t_names t -> map emap (t_edges t') = map emap (t_edges t) -> t_blocks t' = t_blocks t ->
    forall a, value t' a = value t a.
  Proof.
    intros t t' K H Hn He Hb a. unfold value, element. rewrite Hn.
    assert (Q : const_at t' (map (fun n => (n, (tt, index a n))) (t_names t)) = const_at t (map (fun n => (n, (tt, index a n))) (t_names t))); [|now rewrite Q].
    unfold const_at. rewrite Hn.
    assert (P : get_block_and_offset (map (fun n => (n, (tt, index a n))) (t_names t)) (t_names t) (t_core t') = get_block_and_offset (map (fun n => (n, (tt, index a n))) (t_names t)) (t_names t) (t_core t)).
    { unfold get_block_and_offset. match goal with |- bind ?x _ = bind ?y _ => assert (P : x = y); [|now rewrite P] end. apply mapM_pair.
      unfold t_edges in He. revert He. generalize (c_edges (t_core t')) (c_edges (t_core t)). generalize (map (fun n => (n, (tt, index a n))) (t_names t)). generalize (t_names t). clear.
      intros l pos. induction l as [|n l IH]; intros [|e es] [|e' es'] He; cbn [map] in He; try discriminate; cbn [combine]; constructor.
      - cbn [fst snd]. injection He as He _. now rewrite He.
      - apply IH. now injection He. }
    rewrite P. unfold find_block. replace (c_blocks (t_core t')) with (c_blocks (t_core t)) by (symmetry; exact Hb). reflexivity.
  Qed.
  Lemma transpose_value : forall t K target, has t K -> Permutation (t_names t) target ->
    exists r, transpose E t target = Ok r /\ forall a, in_slots K a -> value r a = value t a.
  Proof.
    intros t K target H HP. destruct (transpose_bosonic E t target Nf (h_wf _ _ H) HP) as [r [H1 [H2 [H3 [H4 H5]]]]]. exists r. split; [exact H1|]. intros a Ha.
    unfold value, element. rewrite H3.
    rewrite (const_at_ext t (map (fun n => (n, (tt, index a n))) (t_names t)) (map (fun n => (n, (tt, index a n))) target)).
    - rewrite (H5 _ (map (fun i => (tt, i)) (map (index a) (t_names t)))); [reflexivity| |].
      + unfold assigns. rewrite !map_map. apply map_ext_in. intros n Hn. apply (find_pos (fun n => (tt, index a n))). eapply Permutation_in; eauto.
      + exact (in_range_ext_plain t a K H Ha).
    - intros n Hn. rewrite !(find_pos (fun n => (tt, index a n))); auto. eapply Permutation_in; eauto.
  Qed.
  Lemma names_perm : forall t t' K, has t K -> has t' K -> Permutation (t_names t) (t_names t').
  Proof.
    intros t t' K H H'. apply NoDup_Permutation; [apply (wf_nodup _ (h_wf _ _ H))|apply (wf_nodup _ (h_wf _ _ H'))|].
    intro n. rewrite (has_in t K n H), (has_in t' K n H'). reflexivity.
  Qed.
  Lemma blocks_exist : forall t n s d, wf_tensor t -> In n (t_names t) -> In (s, d) (emap (edge_named (legs_of t) n)) -> t_blocks t <> [].
  Proof.
    intros t n s d W Hn Hs B. destruct (leg_of_name t n W Hn) as [e He]. unfold legs_of in Hs. rewrite (leg_named t n e W He) in Hs.
    apply In_nth_error in He as [i Hi]. assert (Hi' : nth_error (t_edges t) i = Some e).
    { clear - Hi. unfold legs_of in Hi. revert i Hi. generalize (t_names t) (t_edges t). induction l as [|x l IH]; intros [|y es] [|i] Hi; cbn in Hi; try discriminate; [injection Hi as _ ->; reflexivity|cbn; now apply (IH es)]. }
    destruct (wf_pruned _ (wf_tcore _ W) i e s Hi' (in_map fst _ _ Hs)) as [key [Hk _]]. unfold t_blocks in B. now rewrite B in Hk.
  Qed.
  Lemma emap_dimension : forall t t' n, wf_tensor t -> wf_tensor t' -> In n (t_names t) -> In n (t_names t') -> emap (edge_named (legs_of t') n) = emap (edge_named (legs_of t) n) -> dimension t' n = dimension t n.
  Proof.
    intros t t' n W W' Hn Hn' He. unfold dimension. destruct (leg_of_name t n W Hn) as [e Hl]. destruct (leg_of_name t' n W' Hn') as [e' Hl'].
    unfold legs_of in He. rewrite (leg_named t n e W Hl), (leg_named t' n e' W' Hl') in He.
    rewrite (In_mfind_nodup (legs_of t) n e); [|unfold legs_of; rewrite combine_map_fst by apply (wf_rank _ W); apply (wf_nodup _ W)|exact Hl].
    rewrite (In_mfind_nodup (legs_of t') n e'); [|unfold legs_of; rewrite combine_map_fst by apply (wf_rank _ W'); apply (wf_nodup _ W')|exact Hl'].
    now rewrite He.
  Qed.
  (** one factor of a decomposition *)
  Lemma factor_has : forall t K (x : tensor unit R) (P : nat -> bool) c d, has t K -> wf_tensor x ->
    (forall n, In n (t_names x) <-> n = c \/ In n (t_names t) /\ P n = true) -> (slot K c <> None -> P c = false) ->
    (forall n, In n (t_names t) -> P n = true -> emap (edge_named (legs_of x) n) = emap (edge_named (legs_of t) n)) ->
    In (tt, d) (emap (edge_named (legs_of x) c)) ->
    has x ((c, Some d) :: filter (fun p => P (fst p)) K).
  Proof.
    intros t K x P c d H W Hn Hc He Hd. assert (B : t_blocks x <> []) by (apply (blocks_exist x c tt d W); [apply Hn; now left|exact Hd]).
    constructor; auto. intro n. unfold slot. cbn [mfind]. destruct (Nat.eq_dec n c) as [->|Q].
    - rewrite eqb_refl. destruct (dimension_of x c W B) as [D1 D2]; [apply Hn; now left|]. rewrite D1. rewrite D2 in Hd. destruct Hd as [Hd|[]]. congruence.
    - rewrite (neqb n c Q), (find_filter P). destruct (in_dec Nat.eq_dec n (t_names x)) as [I|I].
      + assert (I' := I). apply Hn in I' as [->|[I' Hp]]; [congruence|]. rewrite Hp. rewrite (emap_dimension t x n (h_wf _ _ H) W I' I (He n I' Hp)). apply (h_dim _ _ H).
      + assert (D : dimension x n = None) by (destruct (dimension x n) eqn:D; [|reflexivity]; destruct I; apply (dimension_named x n W); congruence). rewrite D.
        destruct (P n) eqn:Hp; [|reflexivity]. fold (slot K n). destruct (slot K n) eqn:S; [|reflexivity]. destruct I. apply Hn. right. split; [|exact Hp]. apply (has_in t K n H). congruence.
  Qed.
  Lemma plain_fused : forall t K l, has t K -> incl l (t_names t) -> has_charge t l tt /\ fused_dim t l tt = fold_right Nat.mul 1 (map (fun n => size (slot K n)) l).
  Proof.
    intros t K l H Hl. assert (M : maps_in t l = map (fun d => [(tt, d)]) (map (fun n => size (slot K n)) l)).
    { unfold maps_in. rewrite map_map. apply map_ext_in. intros n Hn. rewrite (has_size t K n H (Hl n Hn)). cbn [size]. now apply dimension_of; [apply (h_wf _ _ H)|apply (h_block _ _ H)|apply Hl]. }
    split.
    - unfold has_charge. rewrite M. generalize (map (fun n => size (slot K n)) l). intro ds. exists (map (fun _ => tt) ds), (fold_right Nat.mul 1 ds). split; [|now destruct (ssum (map (fun _ => tt) ds))].
      induction ds as [|d ds IH]; cbn [map fold_right]; constructor; [now left|exact IH].
    - unfold fused_dim. rewrite M. exact (plain_merged_dim Ns (map (fun n => size (slot K n)) l) tt).
  Qed.
  Lemma mul_perm : forall l l' : list nat, Permutation l l' -> fold_right Nat.mul 1 l = fold_right Nat.mul 1 l'.
  Proof. induction 1; cbn [fold_right]; lia. Qed.
  Lemma prod_names : forall t K (P : nat -> bool), has t K -> NoDup (keys K) ->
    fold_right Nat.mul 1 (map (fun n => size (slot K n)) (filter P (t_names t))) = fold_right Nat.mul 1 (map (fun p => size (snd p)) (filter (fun p => P (fst p)) K)).
  Proof.
    intros t K P H N.
    set (L := filter (fun n => match slot K n with Some _ => true | None => false end) (filter P (keys K))).
    transitivity (fold_right Nat.mul 1 (map (fun n => size (slot K n)) L)).
    - apply mul_perm. apply Permutation_map. apply NoDup_Permutation.
      + apply NoDup_filter. apply (wf_nodup _ (h_wf _ _ H)).
      + apply NoDup_filter, NoDup_filter. exact N.
      + intro n. unfold L. rewrite !filter_In. rewrite (has_in t K n H). split.
        * intros [A B]. split; [split; [now apply slot_keys|exact B]|]. destruct (slot K n); congruence.
        * intros [[A B] C]. split; [|exact B]. destruct (slot K n); congruence.
    - transitivity (fold_right Nat.mul 1 (map (fun n => size (slot K n)) (filter P (keys K)))).
      + unfold L. induction (filter P (keys K)) as [|n l IH]; [reflexivity|]. cbn [filter map fold_right]. destruct (slot K n) eqn:Q; cbn [map fold_right size]; rewrite ?Q; cbn [size]; rewrite IH; lia.
      + f_equal. assert (G : forall L, incl L K -> map (fun n => size (slot K n)) (filter P (keys L)) = map (fun p => size (snd p)) (filter (fun p => P (fst p)) L)); [|apply G, incl_refl].
        induction L0 as [|[k o] L' IH]; intro Hi; [reflexivity|]. cbn [keys map filter fst]. fold (keys L').
        assert (Hk : slot K k = o) by (unfold slot; now rewrite (In_mfind_nodup K k o N (Hi (k, o) (or_introl eq_refl)))).
        destruct (P k); cbn [map snd]; rewrite IH by (intros x Hx; apply Hi; now right); [now rewrite Hk|reflexivity].
  Qed.

  (** two factors whose product is the tensor *)
  Lemma factors_value : forall t K (x y : tensor unit R) (P : nat -> bool) cx cy d t', has t K ->
    has x ((cx, Some d) :: filter (fun p => P (fst p)) K) -> has y ((cy, Some d) :: filter (fun p => negb (P (fst p))) K) ->
    (slot K cx <> None -> P cx = false) -> (slot K cy <> None -> P cy = true) ->
    bind (contract E J x y [(cx, cy)]) (fun p => transpose E p (t_names t)) = Ok t' ->
    t_names t' = t_names t -> map emap (t_edges t') = map emap (t_edges t) -> t_blocks t' = t_blocks t ->
    forall a, in_slots K a -> value t a = Sum d (fun c => rmul (value x ((cx, c) :: a)) (value y ((cy, c) :: a))).
  Proof.
    intros t K x y P cx cy d t' H Kx Ky Cx Cy Hc Nt Et Bt.
    destruct (contract_has EA E J HJ x y _ _ [(cx, cy)] Kx Ky) as [p [P1 [P2 P3]]].
    { repeat constructor; intros []. } { repeat constructor; intros []. }
    { intros a b [Q|[]]. injection Q as <- <-. unfold slot. cbn [mfind]. now rewrite !eqb_refl. }
    { intros n A B. unfold keys in A, B. apply in_map_iff in A as [[n1 o1] [A0 A]]. apply in_map_iff in B as [[n2 o2] [B0 B]]. cbn [fst] in A0, B0. subst n1 n2.
      unfold without in A, B. cbn [map fst snd] in A, B. apply filter_In in A as [A A']. apply filter_In in B as [B B']. cbn [fst] in A', B'.
      assert (cqn : n <> cx) by (intros ->; cbn [member existsb] in A'; now rewrite Nat.eqb_refl in A').
      assert (crn : n <> cy) by (intros ->; cbn [member existsb] in B'; now rewrite Nat.eqb_refl in B').
      destruct A as [A|A]; [congruence|]. destruct B as [B|B]; [congruence|]. apply filter_In in A as [_ A]. apply filter_In in B as [_ B]. cbn [fst] in A, B. now rewrite A in B. }
    set (KK := without (map fst [(cx, cy)]) ((cx, Some d) :: filter (fun p => P (fst p)) K) ++ without (map snd [(cx, cy)]) ((cy, Some d) :: filter (fun p => negb (P (fst p))) K)) in *.
    assert (S : forall n, slot KK n = slot K n).
    { intro n. unfold KK. cbn [map fst snd]. unfold without. cbn [filter fst]. replace (member cx [cx]) with true by (symmetry; apply member_iff; now left). replace (member cy [cy]) with true by (symmetry; apply member_iff; now left). cbn [negb].
      unfold slot at 1. rewrite mfind_app. rewrite (find_filter (fun n => negb (member n [cx]))), (find_filter (fun n => negb (member n [cy]))), (find_filter P), (find_filter (fun n => negb (P n))).
      cbn [member existsb]. rewrite !orb_false_r.
      destruct (Nat.eqb_spec n cx) as [Q1|Q1]; destruct (Nat.eqb_spec n cy) as [Q2|Q2]; cbn [negb].
      - rewrite <- Q1 in Cx. rewrite <- Q2 in Cy. destruct (slot K n) eqn:S; [|reflexivity]. rewrite Cx in Cy by discriminate. discriminate Cy. discriminate.
      - rewrite <- Q1 in Cx. destruct (P n) eqn:M; cbn [negb]; [|unfold slot; now destruct (mfind n K)]. destruct (slot K n) eqn:S; [|reflexivity]. discriminate Cx. discriminate.
      - rewrite <- Q2 in Cy. destruct (P n) eqn:M; cbn [negb]; [unfold slot; now destruct (mfind n K)|]. destruct (slot K n) eqn:S; [|reflexivity]. discriminate Cy. discriminate.
      - unfold slot. destruct (P n); cbn [negb]; now destruct (mfind n K). }
    apply (has_ext p KK K) in P2; [|exact S].
    destruct (transpose_value p K (t_names t) P2 (names_perm p t K P2 H)) as [t2 [T1 T2]]. rewrite P1 in Hc. cbn [bind] in Hc. rewrite T1 in Hc. injection Hc as ->.
    intros a Ha. rewrite <- (same_value t t' K H Nt Et Bt a), (T2 a Ha), P3.
    - cbn [map Sums fst]. unfold slot. cbn [mfind]. rewrite eqb_refl. reflexivity.
    - intro n. rewrite S. apply Ha.
  Qed.

  (** ** qr *)
  Section Qr.
    Variables (L : qr_lapack R) (Iq : qr_names).
    Hypotheses (HL : qr_sound L) (HI : i_qr_1 Iq <> i_qr_2 Iq).
    Theorem qr_has : forall t K free cq cr, has t K ->
      cq <> i_qr_1 Iq /\ cq <> i_qr_2 Iq -> cr <> i_qr_1 Iq /\ cr <> i_qr_2 Iq -> member cq free || negb (member cq (keys K)) = true -> negb (member cr free && member cr (keys K)) = true ->
      (exists msg, qr L E Iq t "r"%char free cq cr = Throw (RuntimeError msg) /\ ~ qr_never_fails L) \/
      exists q r d, qr L E Iq t "r"%char free cq cr = Ok (q, r) /\ has q ((cq, Some d) :: without free K) /\ has r ((cr, Some d) :: within free K) /\
        forall a, in_slots K a -> value t a = Sum d (fun c => rmul (value q ((cq, c) :: a)) (value r ((cr, c) :: a))).
    Proof.
      intros t K free cq cr H Cq Cr Nq Nr. assert (W := h_wf _ _ H).
      assert (Hq : forall n, In n (q_legs "r"%char free t) <-> In n (t_names t) /\ negb (member n free) = true) by (intro n; apply filter_In).
      assert (Hr : forall n, In n (r_legs "r"%char free t) <-> In n (t_names t) /\ member n free = true) by (intro n; apply filter_In).
      assert (Hk : forall n, In n (t_names t) -> member n (keys K) = true) by (intros n Hn; apply member_iff, slot_keys; now apply (has_in t K n H)).
      assert (X1 : ~ In cq (q_legs "r"%char free t)).
      { intro Q. apply Hq in Q as [Q1 Q2]. apply Hk in Q1. rewrite Q1 in Nq. now destruct (member cq free). }
      assert (X2 : ~ In cr (r_legs "r"%char free t)).
      { intro Q. apply Hr in Q as [Q1 Q2]. apply Hk in Q1. now rewrite Q1, Q2 in Nr. }
      assert (F : @is_fermi unit _ = true -> group_arrow_known (env_arrow E) t (q_legs "r"%char free t) /\ group_arrow_known (env_arrow E) t (r_legs "r"%char free t)) by (rewrite Nf; discriminate).
      destruct (qr_shape EA L HL E Iq t "r"%char free cq cr W eq_refl HI Cq Cr X1 X2 F) as [Th|[q [r [H1 [Wq [Wr [Hn [Eq [Er [Dq [Dr _]]]]]]]]]]]; [now left|right].
      destruct (qr_reconstructs EA ltac:(rewrite Nf; discriminate) L HL E Iq t "r"%char free cq cr W eq_refl HI Cq Cr X1 X2 F (h_block _ _ H) E J HJ F) as [[msg [Th _]]|[q' [r' [t' [H1' [Hc [Wt [Nt [Et [Bt _]]]]]]]]]]; [congruence|].
      rewrite H1 in H1'. injection H1' as <- <-.
      assert (Nq' : forall n, In n (t_names q) <-> n = cq \/ In n (t_names t) /\ negb (member n free) = true).
      { intro n. rewrite <- Hq. destruct Hn as [[-> _]|[-> _]]; [rewrite in_app_iff|]; cbn [In]; intuition. }
      assert (Nr' : forall n, In n (t_names r) <-> n = cr \/ In n (t_names t) /\ member n free = true).
      { intro n. rewrite <- Hr. destruct Hn as [[_ ->]|[_ ->]]; [|rewrite in_app_iff]; cbn [In]; intuition. }
      destruct (plain_fused t K (q_legs "r"%char free t) H ltac:(intros n Hn'; apply Hq in Hn'; tauto)) as [C1 _].
      destruct (plain_fused t K (r_legs "r"%char free t) H ltac:(intros n Hn'; apply Hr in Hn'; tauto)) as [C2 _].
      set (d := Nat.min (fused_dim t (q_legs "r"%char free t) (sneg tt)) (fused_dim t (r_legs "r"%char free t) tt)).
      assert (Dq' : In (tt, d) (emap (edge_named (legs_of q) cq))) by (apply Dq; now repeat split).
      assert (Dr' : In (tt, d) (emap (edge_named (legs_of r) cr))) by (apply Dr; exact Dq').
      clearbody d.
      assert (Kq : has q ((cq, Some d) :: without free K)).
      { apply (factor_has t K q (fun n => negb (member n free)) cq d H Wq Nq'); auto.
        - intro Hs. apply slot_keys, member_iff in Hs. rewrite Hs in Nq. now destruct (member cq free).
        - intros n A B. apply Eq. now apply Hq. }
      assert (Kr : has r ((cr, Some d) :: within free K)).
      { apply (factor_has t K r (fun n => member n free) cr d H Wr Nr'); auto.
        - intro Hs. apply slot_keys, member_iff in Hs. rewrite Hs in Nr. now destruct (member cr free).
        - intros n A B. apply Er. now apply Hr. }
      exists q, r, d. split; [exact H1|]. split; [exact Kq|]. split; [exact Kr|].
      apply (factors_value t K q r (fun n => negb (member n free)) cq cr d t' H Kq); auto.
      - apply (has_ext r _ _ Kr). intro n. unfold slot, within. cbn [mfind]. destruct (eqb n cr); [reflexivity|].
        rewrite (find_filter (fun n => negb (negb (member n free)))), (find_filter (fun n => member n free)). now rewrite negb_involutive.
      - intro Q. apply slot_keys, member_iff in Q. rewrite Q in Nq. now destruct (member cq free).
      - intro Q. apply slot_keys, member_iff in Q. rewrite Q in Nr. now destruct (member cr free).
    Qed.
  End Qr.

  (** ** svd, the singular values multiplied onto U; no truncation *)
  Section Svd.
    Context {V : Type}.
    Variables (of_real : V -> R) (vzero vjunk : V) (greater : V -> V -> bool) (gesvd : nat -> nat -> list R -> bool * (list V * list R * list R)) (Is : svd_names).
    Hypotheses (MA : associative_product R) (HS : svd_sound of_real vzero greater gesvd) (HO : strict_order greater) (HI : i_svd_u Is <> i_svd_v Is).
    Theorem svd_has : forall t K free cu cv cut, has t K -> NoDup (keys K) ->
      cu <> i_svd_u Is -> cv <> i_svd_v Is -> negb (member cu free && member cu (keys K)) = true -> member cv free || negb (member cv (keys K)) = true ->
      fold_right Nat.mul 1 (map (fun p => size (snd p)) (without free K)) <= cut ->
      exists u sing v w u' d, svd gesvd vzero greater E vjunk Is t free cu cv (Some cut) = Ok (u, sing, v, w) /\ (w = true -> ~ svd_never_fails gesvd) /\
        multiple E u (as_scalars of_real sing) cu "u"%char false = Ok u' /\
        has u' ((cu, Some d) :: within free K) /\ has v ((cv, Some d) :: without free K) /\
        d <= fold_right Nat.mul 1 (map (fun p => size (snd p)) (without free K)) /\
        (w = false -> forall a, in_slots K a -> value t a = Sum d (fun c => rmul (value u' ((cu, c) :: a)) (value v ((cv, c) :: a)))).
    Proof.
      intros t K free cu cv cut H NK Cu Cv Nu Nv Hcut. assert (W := h_wf _ _ H).
      assert (Hu : forall n, In n (u_legs free t) <-> In n (t_names t) /\ member n free = true) by (intro n; apply filter_In).
      assert (Hv : forall n, In n (v_legs free t) <-> In n (t_names t) /\ negb (member n free) = true) by (intro n; apply filter_In).
      assert (Cu' : slot K cu <> None -> member cu free = false).
      { intro Q. apply slot_keys, member_iff in Q. rewrite Q in Nu. now destruct (member cu free). }
      assert (Cv' : slot K cv <> None -> member cv free = true).
      { intro Q. apply slot_keys, member_iff in Q. rewrite Q in Nv. now destruct (member cv free). }
      assert (X1 : ~ In cu (u_legs free t)).
      { intro Q. apply Hu in Q as [Q1 Q2]. apply (has_in t K cu H) in Q1. rewrite Cu' in Q2 by exact Q1. discriminate. }
      assert (X2 : ~ In cv (v_legs free t)).
      { intro Q. apply Hv in Q as [Q1 Q2]. apply (has_in t K cv H) in Q1. rewrite Cv' in Q2 by exact Q1. discriminate. }
      assert (F : @is_fermi unit _ = true -> group_arrow_known (env_arrow E) t (u_legs free t) /\ group_arrow_known (env_arrow E) t (v_legs free t)) by (rewrite Nf; discriminate).
      destruct (svd_shape EA MA of_real vzero greater gesvd HS E vjunk Is t free cu cv W HI Cu Cv X1 X2 F) as [u [v [sing [w [H1 [Hw [Wu [Wv [Nu' [Nv' [Eu [Ev [Du [Dv [_ [Hs _]]]]]]]]]]]]]]]].
      destruct (svd_truncates EA MA of_real vzero greater gesvd HS E vjunk Is t free cu cv W HI Cu Cv X1 X2 F HO cut) as [u1 [v1 [sing1 [w1 [H1' [_ [Hno _]]]]]]].
      rewrite H1 in H1'. injection H1' as <- <- <- <-.
      destruct (plain_fused t K (u_legs free t) H ltac:(intros n Hn'; apply Hu in Hn'; tauto)) as [C1 _].
      destruct (plain_fused t K (v_legs free t) H ltac:(intros n Hn'; apply Hv in Hn'; tauto)) as [C2 C3].
      change (v_legs free t) with (filter (fun n => negb (member n free)) (t_names t)) in C3 at 2.
      rewrite (prod_names t K (fun n => negb (member n free)) H NK) in C3. fold (without free K) in C3.
      set (d := Nat.min (fused_dim t (u_legs free t) (sneg tt)) (fused_dim t (v_legs free t) tt)).
      assert (Du' : In (tt, d) (emap (edge_named (legs_of u) cu))) by (apply Du; now repeat split).
      assert (Dv' : In (tt, d) (emap (edge_named (legs_of v) cv))) by (apply Dv; exact Du').
      assert (Bd : d <= fold_right Nat.mul 1 (map (fun p => size (snd p)) (without free K))) by (rewrite <- C3; apply Nat.le_min_r).
      clearbody d. clear C1 C2 C3.
      assert (Ku : has u ((cu, Some d) :: within free K)).
      { apply (factor_has t K u (fun n => member n free) cu d H Wu); auto.
        - intro n. rewrite Nu', in_app_iff, Hu. cbn [In]. intuition.
        - intros n A B. apply Eu. now apply Hu. }
      assert (Kv : has v ((cv, Some d) :: without free K)).
      { apply (factor_has t K v (fun n => negb (member n free)) cv d H Wv); auto.
        - intro n. rewrite Nv'. cbn [In]. rewrite Hv. intuition.
        - intro Q. now rewrite Cv'.
        - intros n A B. apply Ev. now apply Hv. }
      assert (Icu : In cu (t_names u)) by (rewrite Nu'; apply in_or_app; right; now left).
      destruct (dimension_of u cu Wu (h_block _ _ Ku) Icu) as [_ Em].
      assert (Ed : dim_of u cu = d) by (rewrite Em in Du'; destruct Du' as [Q|[]]; congruence).
      rewrite Ed in Em. rewrite Em in Hs. destruct sing as [|[[] l] [|x sing]]; cbn [map fst snd] in Hs; try discriminate. injection Hs as Hl.
      assert (Fit : Spectrum.fits u (as_scalars of_real [(tt, l)]) cu false).
      { intros e s d' He Hs. exists (map of_real l). unfold as_scalars. cbn [map fst snd]. destruct s. split; [reflexivity|].
        unfold legs_of in Em. rewrite (leg_named u cu e Wu He) in Em. rewrite Em in Hs. destruct Hs as [Q|[]]. rewrite map_length. congruence. }
      destruct (multiple_at E u (as_scalars of_real [(tt, l)]) cu "u"%char false false Wu Icu eq_refl Fit) as [u' [M1 [M2 [M3 [M4 _]]]]].
      assert (Ku' : has u' ((cu, Some d) :: within free K)).
      { constructor; [exact M2| |].
        - apply (blocks_exist u' cu tt d M2); [now rewrite M3|]. unfold legs_of. rewrite M3, M4. exact Du'.
        - intro n. rewrite <- (h_dim _ _ Ku n). unfold dimension, legs_of. now rewrite M3, M4. }
      exists u, [(tt, l)], v, w, u', d. split; [|split; [exact Hw|split; [exact M1|split; [exact Ku'|split; [exact Kv|split; [exact Bd|]]]]]].
      { apply Hno. cbn [map snd]. unfold sum_nat. cbn [fold_right]. rewrite Hl. lia. }
      intros ->.
      destruct (svd_reconstructs EA MA of_real vzero greater gesvd HS E vjunk Is t free cu cv W HI Cu Cv X1 X2 F ltac:(rewrite Nf; discriminate) (h_block _ _ H) E E J "u"%char "v"%char eq_refl eq_refl HJ F)
        as [u2 [v2 [sing2 [w2 [H2 [_ Hp]]]]]].
      rewrite H1 in H2. injection H2 as <- <- <- <-. destruct (Hp eq_refl) as [[u3 [t' [Q1 [Q2 [_ [Q3 [Q4 [Q5 _]]]]]]]] _]. rewrite M1 in Q1. injection Q1 as <-.
      apply (factors_value t K u' v (fun n => member n free) cu cv d t' H Ku' Kv); auto.
    Qed.
  End Svd.
End Tools.
