(** Contracting three tensors that form a chain, in either order. *)
From Coq Require Import String List Bool Arith Lia Permutation.
From Verif Require Import Base.Outcome Base.SMap Model.Symmetry Model.Edge Model.Core Model.EdgeOperator Model.Contract
  Spec.Blocks Spec.Fuse Spec.Sign Spec.Relabel Spec.Contract Spec.FermiContract Spec.Svd Spec.Grid Proof.SymmetryFacts Proof.LoopFacts Proof.CoreFacts Proof.ConstructFacts Proof.ElemFacts Proof.GroupFacts
  Proof.CopyLoopFacts Proof.SignFacts Proof.TransposeNames Proof.NamedOperator Proof.MergeNames Proof.LegFacts Proof.ContractNames Proof.SumFacts Proof.ExchangeFacts Proof.SplitMerged Proof.ContractSym
  Proof.FermiSwap Proof.FactorFacts Proof.HotContract Proof.TableFacts.
Import ListNotations.
Local Notation tlegs t := (combine (t_names t) (t_edges t)).

Section Sums.
  Context {R : Type} {RR : Scalar R}.
  Hypothesis EA : exact_arithmetic R.
  Hypothesis DP : distributive_product R.

  Lemma sum_scale : forall (c : R) l, rmul c (rsum l) = rsum (map (rmul c) l).
  Proof.
    intros c l. induction l as [|x l IH]; [cbn; rewrite (ea_mul_comm _ EA); apply (ea_mul_0 _ EA)|]. cbn [map]. change (rmul c (radd x (rsum l)) = radd (rmul c x) (rsum (map (rmul c) l))).
    now rewrite DP, IH.
  Qed.
  Lemma sum_both : forall A (f g : A -> R) l, rsum (map (fun x => radd (f x) (g x)) l) = radd (rsum (map f l)) (rsum (map g l)).
  Proof.
    induction l as [|x l IH]; [symmetry; apply (ea_add_0 _ EA)|]. cbn [map]. change (radd (radd (f x) (g x)) (rsum (map (fun x => radd (f x) (g x)) l)) = radd (radd (f x) (rsum (map f l))) (radd (g x) (rsum (map g l)))). rewrite IH.
    rewrite <- !(ea_add_assoc _ EA). f_equal. rewrite !(ea_add_assoc _ EA). f_equal. apply (ea_add_comm _ EA).
  Qed.
  Lemma sum_exchange : forall A B (f : A -> B -> R) l1 l2,
    rsum (map (fun x => rsum (map (f x) l2)) l1) = rsum (map (fun y => rsum (map (fun x => f x y) l1)) l2).
  Proof.
    induction l1 as [|x l1 IH]; intro l2.
    - symmetry. apply (rsum_zero EA). intros z Hz. apply in_map_iff in Hz. destruct Hz as [y [<- _]]. reflexivity.
    - cbn [map]. change (radd (rsum (map (f x) l2)) (rsum (map (fun x => rsum (map (f x) l2)) l1)) = rsum (map (fun y => radd (f x y) (rsum (map (fun x => f x y) l1))) l2)).
      rewrite IH. symmetry. apply sum_both.
  Qed.
End Sums.

Lemma nodup_one : forall n : nat, NoDup [n].
Proof. intro n. constructor; [easy|constructor]. Qed.
Lemma free_one : forall names n, In n names -> NoDup names -> Permutation names (n :: free_names names [n]).
Proof.
  intros names n H N. eapply perm_trans; [apply (free_perm names [n])|]; auto.
  - constructor; [easy|constructor]. - intros x [<-|[]]. exact H. - apply Permutation_sym, Permutation_cons_append.
Qed.
Lemma free_free : forall names a b, free_names (free_names names [a]) [b] = free_names names [a; b].
Proof.
  intros names a b. induction names as [|n names IH]; [reflexivity|]. unfold free_names in *. cbn [filter]. unfold member in *. cbn [existsb] in *.
  destruct (Nat.eqb n a) eqn:E; cbn [negb orb filter existsb]; [exact IH|]. rewrite IH. reflexivity.
Qed.
Lemma free_swap : forall names a b, free_names names [a; b] = free_names names [b; a].
Proof. intros names a b. unfold free_names. apply filter_ext. intro n. unfold member. cbn [existsb]. now destruct (Nat.eqb n a), (Nat.eqb n b). Qed.
Lemma free_out : forall l n, ~ In n l -> free_names l [n] = l.
Proof.
  induction l as [|x l IH]; intros n H; [reflexivity|]. unfold free_names in *. cbn [filter]. unfold member in *. cbn [existsb] in *.
  destruct (Nat.eqb_spec x n) as [->|D]; [exfalso; apply H; now left|]. cbn [orb negb]. f_equal. apply IH. intro Hc. apply H. now right.
Qed.
Lemma free_app : forall l l' cs, free_names (l ++ l') cs = free_names l cs ++ free_names l' cs.
Proof. intros. unfold free_names. apply filter_app. Qed.
Lemma free_in : forall names n x, In x (free_names names [n]) <-> In x names /\ x <> n.
Proof.
  intros names n x. unfold free_names. rewrite filter_In. unfold member. cbn [existsb]. rewrite orb_false_r. destruct (Nat.eqb_spec x n) as [->|D]; cbn [negb]; intuition congruence.
Qed.
Lemma free_nodup : forall names cs, NoDup names -> NoDup (free_names names cs).
Proof. intros. now apply NoDup_filter. Qed.

Section Chain.
  Context {S R : Type} {SS : Sym S} {SL : SymLaws S} {RR : Scalar R}.
  Notation entry := (S * nat)%type.
  Hypothesis Ns : @is_nosym S SS = false.
  Hypothesis EA : exact_arithmetic R.
  Hypothesis AP : associative_product R.
  Hypothesis DP : distributive_product R.
  Hypothesis HN : is_fermi = true -> exact_negation R.
  Local Notation en t n := (edge_named (legs_of t) n).
  Local Notation mp t l := (map (fun n => emap (edge_named (legs_of t) n)) l).

  Lemma element_ext : forall (t : tensor S R) p q, (forall n, In n (t_names t) -> mfind n p = mfind n q) -> element t p = element t q.
  Proof. intros t p q H. unfold element. now rewrite (const_at_ext t p q H). Qed.

  (** a charge of an edge occurs in a block *)
  Lemma charge_used : forall (t : tensor S R) n s d, wf_tensor t -> In n (t_names t) -> In (s, d) (emap (en t n)) ->
    exists k : nat -> S, k n = s /\ (forall m, In m (t_names t) -> exists d, In (k m, d) (emap (en t m))) /\ ssum (map k (t_names t)) = szero.
  Proof.
    intros t n s d W Hn Hs. destruct (leg_of_name t n W Hn) as [e He]. unfold legs_of in Hs. rewrite (leg_named t n e W He) in Hs.
    apply In_nth_error in He as [i Hi]. apply combine_nth_inv in Hi as [H1 H2].
    destruct (wf_pruned _ (wf_tcore _ W) i e s H2) as [key [K1 K2]]. { now apply (in_map fst) in Hs. }
    destruct (key_present t key W K1) as [c [C1 [C2 [C3 _]]]]. exists c. split; [|split; [|exact C2]].
    - rewrite <- C1, nth_error_map, H1 in K2. now injection K2.
    - intros m Hm. destruct (C3 m Hm) as [d' Hd]. exists d'. now apply mfind_In in Hd.
  Qed.
  (** charges that may stand together do *)
  Lemma charges_stored : forall (r : tensor S R) (mm : nat -> list entry) ns (k : nat -> S),
    map fst (t_blocks r) = map fst (block_list (map mm ns)) -> (forall m, In m ns -> exists d, In (k m, d) (mm m)) -> ssum (map k ns) = szero ->
    In (map k ns) (map fst (t_blocks r)).
  Proof.
    intros r mm ns k Hb Hk Hz. rewrite Hb. assert (Hc : exists n, choice (map mm ns) (map k ns) n).
    { clear - Hk. induction ns as [|x ns IH]; [exists 1; constructor|]. destruct IH as [n Hn]; [intros m Hm; apply Hk; now right|].
      destruct (Hk x (or_introl eq_refl)) as [d Hd]. exists (d * n). cbn [map]. now constructor. }
    destruct Hc as [n Hc]. apply in_map_iff. exists (map k ns, n). split; [reflexivity|]. apply in_block_list. auto.
  Qed.

  (** what contracting one pair of matching edges gives *)
  Record product (t1 t2 r : tensor S R) (a b : nat) : Prop := {
    p_wf : wf_tensor r;
    p_names : t_names r = free_names (t_names t1) [a] ++ free_names (t_names t2) [b];
    p_left : forall n, In n (free_names (t_names t1) [a]) -> emap (en r n) = emap (en t1 n);
    p_right : forall n, In n (free_names (t_names t2) [b]) -> emap (en r n) = emap (en t2 n);
    p_blocks : t_blocks r <> [];
    p_arrow1 : is_fermi = true -> forall n, In n (free_names (t_names t1) [a]) -> arrow_valid (en t1 n) = true -> earrow (en r n) = earrow (en t1 n);
    p_arrow2 : is_fermi = true -> forall n, In n (free_names (t_names t2) [b]) -> arrow_valid (en t2 n) = true -> earrow (en r n) = earrow (en t2 n);
    p_at : forall pos, assigns pos (t_names r) (map (coord pos) (t_names r)) -> valid_pt (t_core r) (map (coord pos) (t_names r)) -> const_at r pos = Ok (signed_sum t1 t2 [(a, b)] pos) }.

  Definition faces (t1 t2 : tensor S R) (a b : nat) : Prop :=
    (is_fermi = true -> earrow (en t1 a) = negb (earrow (en t2 b))) /\ forall s d, In (s, d) (emap (en t1 a)) <-> In (sneg s, d) (emap (en t2 b)).

  Lemma product_of : forall (E : @env R) (I : internal) (t1 t2 : tensor S R) a b, i_contract_1 I <> i_contract_2 I -> wf_tensor t1 -> wf_tensor t2 -> t_blocks t1 <> [] ->
    In a (t_names t1) -> In b (t_names t2) -> faces t1 t2 a b -> NoDup (free_names (t_names t1) [a] ++ free_names (t_names t2) [b]) ->
    (is_fermi = true -> group_arrow_known (env_arrow E) t1 (free_names (t_names t1) [a]) /\ group_arrow_known (env_arrow E) t2 (free_names (t_names t2) [b])) ->
    exists r, contract E I t1 t2 [(a, b)] = Ok r /\ product t1 t2 r a b.
  Proof.
    intros E I t1 t2 a b HI W1 W2 B1 Ha Hb [HA HM] HD HG.
    destruct (contract_edges_at Ns EA HN E I t1 t2 [(a, b)] HI W1 W2 B1) as [r [H1 [H2 [H3 [[re [H4 H5]] [H6 [H7 [H8 [H9 H10]]]]]]]]].
    { left. cbn. lia. } { intros _. cbn. lia. } { intros x [<-|[]]. exact Ha. } { intros x [<-|[]]. exact Hb. } { cbn. constructor; [easy|constructor]. } { cbn. constructor; [easy|constructor]. }
    { intros x y [H|[]]. injection H as <- <-. auto. } { exact HD. }
    { intro F. destruct (HG F) as [G1 G2]. repeat split; auto; right; left; reflexivity. }
    cbn [map fst snd] in *. exists r. split; [exact H1|].
    set (f1 := free_names (t_names t1) [a]) in *. set (f2 := free_names (t_names t2) [b]) in *.
    set (mm := fun n => if member n f1 then emap (en t1 n) else emap (en t2 n)).
    assert (M1 : forall n, In n f1 -> mm n = emap (en t1 n)). { intros n Hn. unfold mm. apply (member_In n f1) in Hn. now rewrite Hn. }
    assert (M2 : forall n, In n f2 -> mm n = emap (en t2 n)).
    { intros n Hn. unfold mm. destruct (member n f1) eqn:Em; [|reflexivity]. apply (member_In n f1) in Em. exfalso. exact (proj2 (proj2 (NoDup_app_inv _ _ _ HD)) n Em Hn). }
    assert (MM : mp t1 f1 ++ mp t2 f2 = map mm (f1 ++ f2)). { rewrite map_app. f_equal; apply map_ext_in; intros n Hn; symmetry; auto. }
    rewrite MM in *.
    assert (P1 : Permutation (t_names t1) (a :: f1)) by (apply free_one; [exact Ha|apply W1]). assert (P2 : Permutation (t_names t2) (b :: f2)) by (apply free_one; [exact Hb|apply W2]).
    (* two sets of charges whose charges on the contracted edges are opposite *)
    assert (J : forall k1 k2 : nat -> S, (forall m, In m (t_names t1) -> exists d, In (k1 m, d) (emap (en t1 m))) -> ssum (map k1 (t_names t1)) = szero ->
      (forall m, In m (t_names t2) -> exists d, In (k2 m, d) (emap (en t2 m))) -> ssum (map k2 (t_names t2)) = szero -> k2 b = sneg (k1 a) ->
      In (map (fun n => if member n f1 then k1 n else k2 n) (f1 ++ f2)) (map fst (t_blocks r))).
    { intros k1 k2 K1 Z1 K2 Z2 O. set (k := fun n => if member n f1 then k1 n else k2 n).
      assert (E1 : forall n, In n f1 -> k n = k1 n). { intros n Hn. unfold k. apply (member_In n f1) in Hn. now rewrite Hn. }
      assert (E2 : forall n, In n f2 -> k n = k2 n).
      { intros n Hn. unfold k. destruct (member n f1) eqn:Em; [|reflexivity]. apply (member_In n f1) in Em. exfalso. exact (proj2 (proj2 (NoDup_app_inv _ _ _ HD)) n Em Hn). }
      apply (charges_stored r mm (f1 ++ f2) k H6).
      - intros m Hm. apply in_app_or in Hm as [Hm|Hm]; [rewrite (E1 m Hm), (M1 m Hm); apply K1|rewrite (E2 m Hm), (M2 m Hm); apply K2]; now apply free_in in Hm.
      - rewrite map_app, ssum_app, (map_ext_in _ _ _ E1), (map_ext_in _ _ _ E2).
        rewrite (ssum_perm _ _ (Permutation_map k1 P1)) in Z1. rewrite (ssum_perm _ _ (Permutation_map k2 P2)) in Z2. cbn [map] in Z1, Z2. rewrite ssum_cons in Z1, Z2.
        apply sadd_eq_0 in Z1. apply sadd_eq_0 in Z2. rewrite Z1, Z2, O. apply sadd_neg_r. }
    assert (Hin : forall n, In n f1 \/ In n f2 -> forall s d, In (s, d) (mm n) -> exists k : nat -> S, k n = s /\ In (map k (f1 ++ f2)) (map fst (t_blocks r))).
    { intros n [Hn|Hn] s d Hs.
      - rewrite (M1 n Hn) in Hs. destruct (charge_used t1 n s d W1 (proj1 (proj1 (free_in _ _ _) Hn)) Hs) as [k1 [K1 [K2 K3]]]. destruct (K2 a Ha) as [da Hda]. apply HM in Hda.
        destruct (charge_used t2 b _ _ W2 Hb Hda) as [k2 [L1 [L2 L3]]]. exists (fun n => if member n f1 then k1 n else k2 n). split; [|now apply J].
        cbv beta. rewrite (proj2 (member_In n f1) Hn). exact K1.
      - rewrite (M2 n Hn) in Hs. destruct (charge_used t2 n s d W2 (proj1 (proj1 (free_in _ _ _) Hn)) Hs) as [k2 [K1 [K2 K3]]]. destruct (K2 b Hb) as [db Hdb].
        assert (Hda : In (sneg (k2 b), db) (emap (en t1 a))) by (apply HM; now rewrite sneg_invol).
        destruct (charge_used t1 a _ _ W1 Ha Hda) as [k1 [L1 [L2 L3]]]. exists (fun n => if member n f1 then k1 n else k2 n). split; [|apply J; auto; now rewrite L1, sneg_invol].
        cbv beta. destruct (member n f1) eqn:Em; [|exact K1]. apply (member_In n f1) in Em. exfalso. exact (proj2 (proj2 (NoDup_app_inv _ _ _ HD)) n Em Hn). }
    assert (Hmaps : forall n, In n (f1 ++ f2) -> emap (en r n) = mm n).
    { intros n Hn. assert (Hn' : In n (t_names r)) by (now rewrite H3). destruct (leg_of_name r n H2 Hn') as [e He]. unfold legs_of. rewrite (leg_named r n e H2 He).
      apply In_nth_error in He as [i Hi]. apply combine_nth_inv in Hi as [Hi1 Hi2]. rewrite H3 in Hi1.
      assert (Hre : exists e0, nth_error re i = Some e0 /\ emap e0 = mm n).
      { apply (f_equal (fun l => nth_error l i)) in H4. unfold maps_of in H4. rewrite !nth_error_map, Hi1 in H4. destruct (nth_error re i) as [e0|]; [|discriminate]. cbn [option_map] in H4. injection H4 as H4. eauto. }
      destruct Hre as [e0 [Hr0 Hr1]]. rewrite H5 in Hi2. rewrite (CoreFacts.prune_nth _ _ 0 i e0 Hr0) in Hi2. injection Hi2 as <-. cbn [emap]. rewrite Hr1.
      apply filter_all. intros [s d] Hs. cbn [fst]. apply used_in_true. destruct (Hin n (in_app_or _ _ _ Hn) s d Hs) as [k [K1 K2]]. exists (map k (f1 ++ f2)). split; [exact K2|].
      cbn [Nat.add]. rewrite nth_error_map, Hi1. cbn [option_map]. now rewrite K1. }
    constructor; auto.
    - intros n Hn. rewrite Hmaps by (apply in_or_app; auto). auto.
    - intros n Hn. rewrite Hmaps by (apply in_or_app; auto). auto.
    - destruct (t_blocks t1) as [|[key data] bl] eqn:EB; [congruence|].
      destruct (key_present t1 key W1) as [c [C1 [C2 [C3 _]]]]. { rewrite EB. now left. }
      destruct (C3 a Ha) as [da Hda]. apply mfind_In in Hda. apply HM in Hda. destruct (charge_used t2 b _ _ W2 Hb Hda) as [k2 [L1 [L2 L3]]].
      assert (HJ := J c k2). destruct (t_blocks r); [|discriminate]. exfalso. apply HJ; auto. intros m Hm. destruct (C3 m Hm) as [d Hd]. apply mfind_In in Hd. eauto.
    - intros pos Hp Hv. exact (H10 pos _ Hp Hv).
  Qed.

  Lemma p_maps : forall t1 t2 r a b, product t1 t2 r a b -> maps_of (t_edges r) = mp t1 (free_names (t_names t1) [a]) ++ mp t2 (free_names (t_names t2) [b]).
  Proof.
    intros t1 t2 r a b P. unfold maps_of. rewrite <- (legs_to_edges r (p_wf _ _ _ _ _ P)), map_map. fold (legs_of r). assert (HP := p_names _ _ _ _ _ P). revert HP. generalize (t_names r). intros l ->. rewrite map_app.
    f_equal; apply map_ext_in; intros n Hn; [apply (p_left _ _ _ _ _ P n Hn)|apply (p_right _ _ _ _ _ P n Hn)].
  Qed.
  Lemma signed_nothing : forall n (x : R), (is_fermi = false -> n = 0) -> x = rzero -> signed ropp n x = rzero.
  Proof.
    intros n x Hn ->. destruct (bool_dec (@is_fermi S SS) true) as [F|F]; [exact (signed_zero EA (HN F) n)|]. apply not_true_is_false in F. now rewrite (Hn F).
  Qed.
  Lemma mul_nothing : forall x : R, rmul x rzero = rzero.
  Proof. intro x. rewrite (ea_mul_comm _ EA). apply (ea_mul_0 _ EA). Qed.
  Lemma bose_pair : forall (t1 t2 : tensor S R) pairs p q, @is_fermi S SS = false -> pair_sign t1 t2 pairs p q = 0.
  Proof. intros. now apply pair_sign_bose. Qed.

  (** the elements of the product: also zero where no block is *)
  Lemma p_element : forall t1 t2 r a b pos, wf_tensor t1 -> wf_tensor t2 -> In a (t_names t1) -> In b (t_names t2) -> faces t1 t2 a b -> product t1 t2 r a b ->
    assigns pos (t_names r) (map (coord pos) (t_names r)) -> in_range (maps_of (t_edges r)) (map (coord pos) (t_names r)) -> element r pos = signed_sum t1 t2 [(a, b)] pos.
  Proof.
    intros t1 t2 r a b pos W1 W2 Ia Ib HF P Ha Hr.
    destruct (eqb (ssum (map fst (map (coord pos) (t_names r)))) szero) eqn:Hz.
    { apply eqb_eq in Hz. unfold element. rewrite (p_at _ _ _ _ _ P pos Ha); [reflexivity|]. split; [exact Hr|exact Hz]. }
    assert (Hz' : ssum (map fst (map (coord pos) (t_names r))) <> szero) by (intro Hc; rewrite Hc, eqb_refl in Hz; discriminate). clear Hz.
    unfold element at 1. rewrite (const_at_forbidden r pos _ (p_wf _ _ _ _ _ P) Ha Hr Hz'). symmetry. unfold signed_sum. cbn [map fst snd].
    rewrite (p_maps _ _ _ _ _ P) in Hr. rewrite (p_names _ _ _ _ _ P) in Ha, Hr, Hz'. rewrite map_app in Hr. apply in_range_app in Hr as [Hr1 Hr2]; [|now rewrite !map_length].
    set (f1 := free_names (t_names t1) [a]) in *. set (f2 := free_names (t_names t2) [b]) in *.
    assert (A1 : assigns pos f1 (map (coord pos) f1)) by (eapply assigns_perm; [exact Ha|]; intros n Hn; apply in_or_app; auto).
    assert (A2 : assigns pos f2 (map (coord pos) f2)) by (eapply assigns_perm; [exact Ha|]; intros n Hn; apply in_or_app; auto).
    apply (rsum_zero EA). intros z Hin. apply in_map_iff in Hin as [pt [<- Hpt]]. apply in_points in Hpt.
    assert (Hpt1 : in_range (mp t1 [a]) pt) by exact Hpt.
    assert (Hpt2 : in_range (mp t2 [b]) (map opposite pt)).
    { apply (pairs_range t1 t2 [(a, b)]); [|exact Hpt1]. intros x y [H|[]]. injection H as <- <-. exact HF. }
    destruct (term_pos t1 [a] pos pt W1 (nodup_one a) ltac:(intros x [<-|[]]; exact Ia) A1 Hr1 Hpt1) as [B1 [B2 [B3 B4]]].
    destruct (term_pos t2 [b] pos _ W2 (nodup_one b) ltac:(intros x [<-|[]]; exact Ib) A2 Hr2 Hpt2) as [C1 [C2 [C3 C4]]].
    cbv zeta. apply signed_nothing; [now apply bose_pair|].
    set (p1 := combine [a] pt ++ pos) in *. set (p2 := combine [b] (map opposite pt) ++ pos) in *.
    destruct (element_conserved t1 p1 W1 B1 B2) as [Z|Z1]; [rewrite Z; apply (ea_mul_0 _ EA)|].
    destruct (element_conserved t2 p2 W2 C1 C2) as [Z|Z2]; [rewrite Z; apply mul_nothing|].
    exfalso. apply Hz'.
    rewrite (total_perm (coord p1) _ _ (free_one _ a Ia (wf_nodup _ W1))) in Z1. rewrite (total_perm (coord p2) _ _ (free_one _ b Ib (wf_nodup _ W2))) in Z2.
    cbn [map] in B4, C4. fold f1 in Z1. fold f2 in Z2. cbn [map] in Z1, Z2. unfold total in Z1, Z2. cbn [map] in Z1, Z2. rewrite ssum_cons in Z1, Z2.
    rewrite (map_ext_in (coord p1) (coord pos)) in Z1 by (intros n Hn; unfold coord; now rewrite (B3 n Hn)).
    rewrite (map_ext_in (coord p2) (coord pos)) in Z2 by (intros n Hn; unfold coord; now rewrite (C3 n Hn)).
    destruct pt as [|x [|? ?]]; try discriminate B4. cbn [map] in C4. injection B4 as B4. injection C4 as C4. rewrite B4 in Z1. rewrite C4 in Z2. cbn [opposite fst] in Z2.
    rewrite !map_app, ssum_app. apply sadd_eq_0 in Z1. apply sadd_eq_0 in Z2. rewrite sneg_invol in Z2. rewrite Z1, Z2. rewrite sadd_comm. apply sadd_neg_r.
  Qed.

  (** a sum times a factor *)
  Lemma pull : forall A (l : list A) s1 (s2 : A -> nat) (f : A -> R) z, (@is_fermi S SS = false -> s1 = 0 /\ forall x, s2 x = 0) ->
    signed ropp s1 (rmul (rsum (map (fun x => signed ropp (s2 x) (f x)) l)) z) = rsum (map (fun x => signed ropp (s1 + s2 x) (rmul (f x) z)) l).
  Proof.
    intros A l s1 s2 f z H. rewrite (ea_mul_comm _ EA), (sum_scale EA DP), map_map.
    destruct (bool_dec (@is_fermi S SS) true) as [F|F].
    - rewrite (signed_sum_out EA (HN F)), map_map. f_equal. apply map_ext. intro x. rewrite (ea_mul_comm _ EA z). change z with (signed ropp 0 z) at 1.
      rewrite (signed_mul EA (HN F)), Nat.add_0_r. apply (ExchangeFacts.signed_signed EA (HN F)).
    - apply not_true_is_false in F. destruct (H F) as [-> H2]. change (signed ropp 0 ?v) with v. f_equal. apply map_ext. intro x. rewrite H2. apply (ea_mul_comm _ EA).
  Qed.
  Lemma pull_left : forall A (l : list A) s1 (s2 : A -> nat) (f : A -> R) z, (@is_fermi S SS = false -> s1 = 0 /\ forall x, s2 x = 0) ->
    signed ropp s1 (rmul z (rsum (map (fun x => signed ropp (s2 x) (f x)) l))) = rsum (map (fun x => signed ropp (s1 + s2 x) (rmul z (f x))) l).
  Proof. intros A l s1 s2 f z H. rewrite (ea_mul_comm _ EA), pull by exact H. f_equal. apply map_ext. intro x. f_equal. apply (ea_mul_comm _ EA). Qed.
End Chain.

Section Three.
  Context {S R : Type} {SS : Sym S} {SL : SymLaws S} {RR : Scalar R}.
  Notation entry := (S * nat)%type.
  Hypothesis EA : exact_arithmetic R.
  Hypothesis AP : associative_product R.
  Hypothesis DP : distributive_product R.
  Hypothesis HN : is_fermi = true -> exact_negation R.
  Local Notation en t n := (edge_named (legs_of t) n).
  Local Notation mp t l := (map (fun n => emap (edge_named (legs_of t) n)) l).
  Variables (A B C AB BC : tensor S R) (a b b' c : nat).
  Hypothesis WA : wf_tensor A.
  Hypothesis WB : wf_tensor B.
  Hypothesis WC : wf_tensor C.
  Hypothesis Ia : In a (t_names A).
  Hypothesis Ib : In b (t_names B).
  Hypothesis Ib' : In b' (t_names B).
  Hypothesis Ic : In c (t_names C).
  Hypothesis Hbb : b <> b'.
  Hypothesis FAB : faces A B a b.
  Hypothesis FBC : faces B C b' c.
  Hypothesis PAB : product A B AB a b.
  Hypothesis PBC : product B C BC b' c.
  Local Notation fA := (free_names (t_names A) [a]).
  Local Notation fB := (free_names (t_names B) [b]).
  Local Notation fB' := (free_names (t_names B) [b']).
  Local Notation g := (free_names (t_names B) [b; b']).
  Local Notation fC := (free_names (t_names C) [c]).
  Hypothesis DAB : NoDup (fA ++ fB).
  Hypothesis DBC : NoDup (fB' ++ fC).
  Hypothesis VB : is_fermi = true -> arrow_valid (en B b') = true.

  Lemma b'_in : In b' fB. Proof. apply free_in. auto. Qed.
  Lemma b_in : In b fB'. Proof. apply free_in. auto. Qed.
  Lemma b'_out : ~ In b' fA. Proof. intro H. exact (proj2 (proj2 (NoDup_app_inv _ _ _ DAB)) b' H b'_in). Qed.
  Lemma b_out : ~ In b fC. Proof. intro H. exact (proj2 (proj2 (NoDup_app_inv _ _ _ DBC)) b b_in H). Qed.
  Lemma left_free : free_names (t_names AB) [b'] = fA ++ g.
  Proof. rewrite (p_names _ _ _ _ _ PAB), free_app, (free_out fA b' b'_out), free_free. reflexivity. Qed.
  Lemma right_free : free_names (t_names BC) [b] = g ++ fC.
  Proof. rewrite (p_names _ _ _ _ _ PBC), free_app, (free_out fC b b_out), free_free, free_swap. reflexivity. Qed.
  Lemma g_in : forall n, In n g <-> In n (t_names B) /\ n <> b /\ n <> b'.
  Proof. intro n. rewrite <- free_free, !free_in. tauto. Qed.
  Lemma B_left : Permutation fB (g ++ [b']).
  Proof. rewrite <- free_free. eapply perm_trans; [apply (free_one fB b' b'_in); apply free_nodup; apply WB|]. apply Permutation_cons_append. Qed.
  Lemma B_right : Permutation fB' (b :: g).
  Proof. rewrite free_swap, <- free_free. apply (free_one fB' b b_in). apply free_nodup. apply WB. Qed.

  (** the exchanges needed in the two orders *)
  Lemma orders : forall odd, Nat.odd (exchanged_odd odd (fA ++ fB) (fA ++ g ++ [b']) + exchanged_odd odd (t_names B) (b :: fB)) =
    Nat.odd (exchanged_odd odd (fB' ++ fC) (b :: g ++ fC) + exchanged_odd odd (t_names B) (fB' ++ [b'])).
  Proof.
    intro odd. rewrite !odd_plus.
    assert (NA : NoDup fA) by (apply free_nodup; apply WA). assert (NC : NoDup fC) by (apply free_nodup; apply WC). assert (NB := wf_nodup _ WB).
    rewrite exchanged_app; [|exact DAB|apply Permutation_refl|exact B_left]. rewrite (exchanged_self odd fA NA). cbn [Nat.odd Nat.even negb]. rewrite xorb_false_l.
    change (b :: g ++ fC) with ((b :: g) ++ fC). rewrite exchanged_app; [|exact DBC|exact B_right|apply Permutation_refl]. rewrite (exchanged_self odd fC NC). cbn [Nat.odd Nat.even negb]. rewrite xorb_false_r.
    assert (P1 : Permutation (t_names B) (b :: fB)) by (apply free_one; auto). assert (P2 : Permutation (t_names B) (fB' ++ [b'])) by (eapply perm_trans; [apply (free_one _ b'); auto|apply Permutation_cons_append]).
    assert (L : xorb (Nat.odd (exchanged_odd odd fB (g ++ [b']))) (Nat.odd (exchanged_odd odd (t_names B) (b :: fB))) = Nat.odd (exchanged_odd odd (t_names B) (b :: g ++ [b']))).
    { rewrite (exchanged_compose odd (t_names B) (b :: fB) (b :: g ++ [b'])); [|exact NB|exact P1|apply perm_skip; exact B_left]. rewrite xorb_comm. f_equal.
      change (b :: fB) with ([b] ++ fB). change (b :: g ++ [b']) with ([b] ++ (g ++ [b'])). rewrite exchanged_app; [|exact (Permutation_NoDup P1 NB)|apply Permutation_refl|exact B_left]. now rewrite (exchanged_self odd [b] (nodup_one b)), xorb_false_l. }
    assert (K : xorb (Nat.odd (exchanged_odd odd fB' (b :: g))) (Nat.odd (exchanged_odd odd (t_names B) (fB' ++ [b']))) = Nat.odd (exchanged_odd odd (t_names B) (b :: g ++ [b']))).
    { change (b :: g ++ [b']) with ((b :: g) ++ [b']). rewrite (exchanged_compose odd (t_names B) (fB' ++ [b']) ((b :: g) ++ [b'])); [|exact NB|exact P2|apply Permutation_app_tail; exact B_right]. rewrite xorb_comm. f_equal.
      rewrite exchanged_app; [|exact (Permutation_NoDup P2 NB)|exact B_right|apply Permutation_refl]. rewrite (exchanged_self odd [b']); [|constructor; [easy|constructor]]. now rewrite xorb_false_r. }
    congruence.
  Qed.

  Lemma find_head : forall (n : nat) (x : entry) pos, mfind n ((n, x) :: pos) = Some x.
  Proof. intros. cbn [mfind]. now rewrite eqb_refl. Qed.
  Lemma find_tail : forall (n m : nat) (x : entry) pos, n <> m -> mfind n ((m, x) :: pos) = mfind n pos.
  Proof. intros n m x pos H. cbn [mfind]. destruct (eqb n m) eqn:E; [apply eqb_eq in E; contradiction|reflexivity]. Qed.

  Theorem chain_sum : forall pos, assigns pos (fA ++ g ++ fC) (map (coord pos) (fA ++ g ++ fC)) ->
    in_range (mp A fA ++ mp B g ++ mp C fC) (map (coord pos) (fA ++ g ++ fC)) ->
    signed_sum AB C [(b', c)] pos = signed_sum A BC [(a, b)] pos.
  Proof.
    intros pos Ha Hr.
    assert (Hr' : in_range (mp A fA) (map (coord pos) fA) /\ in_range (mp B g) (map (coord pos) g) /\ in_range (mp C fC) (map (coord pos) fC)).
    { rewrite !map_app in Hr. apply in_range_app in Hr as [H1 H2]; [|now rewrite !map_length]. apply in_range_app in H2 as [H2 H3]; [auto|now rewrite !map_length]. }
    destruct Hr' as [RA [RB RC]].
    assert (Sub : forall l, incl l (fA ++ g ++ fC) -> assigns pos l (map (coord pos) l)) by (intros l Hl; eapply assigns_perm; [exact Ha|exact Hl]).
    set (la := points (mp A [a])). set (lb := points (mp B [b'])).
    set (sL := fun y x : list entry => pair_sign AB C [(b', c)] (combine [b'] y ++ pos) (combine [c] (map opposite y) ++ pos) +
                 pair_sign A B [(a, b)] (combine [a] x ++ combine [b'] y ++ pos) (combine [b] (map opposite x) ++ combine [b'] y ++ pos)).
    set (sR := fun y x : list entry => pair_sign A BC [(a, b)] (combine [a] x ++ pos) (combine [b] (map opposite x) ++ pos) +
                 pair_sign B C [(b', c)] (combine [b'] y ++ combine [b] (map opposite x) ++ pos) (combine [c] (map opposite y) ++ combine [b] (map opposite x) ++ pos)).
    set (T := fun y x : list entry => rmul (element A (combine [a] x ++ pos)) (rmul (element B (combine [b] (map opposite x) ++ combine [b'] y ++ pos)) (element C (combine [c] (map opposite y) ++ pos)))).
    assert (Hab : forall pt, in_range (mp A [a]) pt <-> in_range (mp B [b]) (map opposite pt)).
    { intro pt. apply (pairs_range A B [(a, b)]). intros x y [H|[]]. injection H as <- <-. exact FAB. }
    assert (Hbc : forall pt, in_range (mp B [b']) pt <-> in_range (mp C [c]) (map opposite pt)).
    { intro pt. apply (pairs_range B C [(b', c)]). intros x y [H|[]]. injection H as <- <-. exact FBC. }
    assert (one : forall (t : tensor S R) n pt, in_range (mp t [n]) pt -> exists x, pt = [x]).
    { intros t n pt H. apply in_range_length in H. destruct pt as [|x [|? ?]]; try discriminate H. now exists x. }
    assert (PL : points (map (fun p => emap (en AB (fst p))) [(b', c)]) = lb).
    { unfold lb. cbn [map fst]. now rewrite (p_right _ _ _ _ _ PAB b' b'_in). }
    (* names looked up *)
    assert (LA : forall x y n, In n (t_names A) -> mfind n ((a, x) :: (b', y) :: pos) = mfind n ((a, x) :: pos)).
    { intros x y n Hn. destruct (Nat.eq_dec n a) as [->|D]; [now rewrite !find_head|]. rewrite !(find_tail n a) by exact D. apply find_tail. intros ->. apply b'_out. apply free_in. auto. }
    assert (LC : forall x y n, In n (t_names C) -> mfind n ((c, y) :: (b, x) :: pos) = mfind n ((c, y) :: pos)).
    { intros x y n Hn. destruct (Nat.eq_dec n c) as [->|D]; [now rewrite !find_head|]. rewrite !(find_tail n c) by exact D. apply find_tail. intros ->. apply b_out. apply free_in. auto. }
    assert (LB : forall x y n, mfind n ((b', y) :: (b, x) :: pos) = mfind n ((b, x) :: (b', y) :: pos)).
    { intros x y n. destruct (Nat.eq_dec n b) as [->|D1]; [rewrite (find_tail b b') by exact Hbb; now rewrite !find_head|].
      rewrite (find_tail n b _ ((b', y) :: pos)) by exact D1. destruct (Nat.eq_dec n b') as [->|D2]; [now rewrite !find_head|]. rewrite !(find_tail n b') by exact D2. now apply find_tail. }
    assert (EAB : forall y, In y lb -> element AB (combine [b'] y ++ pos) = signed_sum A B [(a, b)] (combine [b'] y ++ pos)).
    { intros y Hy. apply in_points in Hy.
      assert (WAB := p_wf _ _ _ _ _ PAB). assert (Hi : In b' (t_names AB)) by (rewrite (p_names _ _ _ _ _ PAB); apply in_or_app; right; exact b'_in).
      destruct (term_pos AB [b'] pos y WAB (nodup_one b') ltac:(intros x [<-|[]]; exact Hi)) as [X1 [X2 _]].
      - rewrite left_free. apply Sub. intros n Hn. rewrite app_assoc. apply in_or_app. now left.
      - rewrite left_free, !map_app. apply in_range_app; [now rewrite !map_length|]. split.
        + rewrite (map_ext_in _ (fun n => emap (en A n))); [exact RA|]. intros n Hn. apply (p_left _ _ _ _ _ PAB n Hn).
        + rewrite (map_ext_in _ (fun n => emap (en B n))); [exact RB|]. intros n Hn. apply (p_right _ _ _ _ _ PAB n). apply g_in in Hn. apply free_in. tauto.
      - cbn [map]. rewrite (p_right _ _ _ _ _ PAB b' b'_in). exact Hy.
      - exact (p_element EA HN A B AB a b _ WA WB Ia Ib FAB PAB X1 X2). }
    assert (EBC : forall x, In x la -> element BC (combine [b] (map opposite x) ++ pos) = signed_sum B C [(b', c)] (combine [b] (map opposite x) ++ pos)).
    { intros x Hx. apply in_points in Hx. apply Hab in Hx.
      assert (WBC := p_wf _ _ _ _ _ PBC). assert (Hi : In b (t_names BC)) by (rewrite (p_names _ _ _ _ _ PBC); apply in_or_app; left; exact b_in).
      destruct (term_pos BC [b] pos (map opposite x) WBC (nodup_one b) ltac:(intros z [<-|[]]; exact Hi)) as [X1 [X2 _]].
      - rewrite right_free. apply Sub. intros n Hn. apply in_or_app. now right.
      - rewrite right_free, !map_app. apply in_range_app; [now rewrite !map_length|]. split.
        + rewrite (map_ext_in _ (fun n => emap (en B n))); [exact RB|]. intros n Hn. apply (p_left _ _ _ _ _ PBC n). apply g_in in Hn. apply free_in. tauto.
        + rewrite (map_ext_in _ (fun n => emap (en C n))); [exact RC|]. intros n Hn. apply (p_right _ _ _ _ _ PBC n Hn).
      - cbn [map]. rewrite (p_left _ _ _ _ _ PBC b b_in). exact Hx.
      - exact (p_element EA HN B C BC b' c _ WB WC Ib' Ic FBC PBC X1 X2). }
    transitivity (rsum (map (fun y => rsum (map (fun x => signed ropp (sL y x) (T y x)) la)) lb)).
    { unfold signed_sum at 1. rewrite PL. apply rsum_ext. intros y Hy. cbn [map fst snd]. cbv zeta. rewrite (EAB y Hy). unfold signed_sum. cbn [map fst snd]. cbv zeta.
      rewrite (pull EA DP HN) by (intro F; split; [now apply bose_pair|intro; now apply bose_pair]).
      apply rsum_ext. intros x Hx. fold (sL y x). f_equal. unfold T. rewrite AP. f_equal.
      apply element_ext. intros n Hn. apply in_points in Hx. apply in_points in Hy. destruct (one A a x Hx) as [x0 ->]. destruct (one B b' y Hy) as [y0 ->]. cbn [combine app]. now apply LA. }
    transitivity (rsum (map (fun x => rsum (map (fun y => signed ropp (sR y x) (T y x)) lb)) la)).
    2: { symmetry. unfold signed_sum at 1. cbn [map fst snd]. apply rsum_ext. intros x Hx. cbv zeta. rewrite (EBC x Hx). unfold signed_sum. cbn [map fst snd]. cbv zeta.
      rewrite (pull_left EA DP HN) by (intro F; split; [now apply bose_pair|intro; now apply bose_pair]).
      apply rsum_ext. intros y Hy. fold (sR y x). f_equal. unfold T. f_equal. apply in_points in Hx. apply in_points in Hy. destruct (one A a x Hx) as [x0 ->]. destruct (one B b' y Hy) as [y0 ->]. cbn [combine app map].
      f_equal; apply element_ext; intros n Hn; [apply LB|now apply LC]. }
    rewrite (sum_exchange EA). apply rsum_ext. intros x Hx. apply rsum_ext. intros y Hy.
    destruct (bool_dec (@is_fermi S SS) true) as [F|F].
    2: { apply not_true_is_false in F. unfold sL, sR. now rewrite !(bose_pair _ _ _ _ _ F). }
    apply signed_parity. unfold sL, sR, pair_sign. apply in_points in Hx. apply in_points in Hy. destruct (one A a x Hx) as [x0 ->]. destruct (one B b' y Hy) as [y0 ->]. cbn [combine app map fst snd rev].
    rewrite !odd_plus, !odd_count. cbn [par fold_right]. rewrite (p_arrow2 _ _ _ _ _ PAB F b' b'_in (VB F)). rewrite left_free, right_free, (p_names _ _ _ _ _ PAB), (p_names _ _ _ _ _ PBC). rewrite <- !app_assoc.
    assert (OA : forall l, exchanged_odd (leg_odd ((a, x0) :: (b', y0) :: pos)) (t_names A) l = exchanged_odd (leg_odd ((a, x0) :: pos)) (t_names A) l).
    { intro l. apply exchanged_ext. intros n Hn. unfold leg_odd. now rewrite (LA x0 y0 n Hn). }
    assert (OC : forall l, exchanged_odd (leg_odd ((c, opposite y0) :: (b, opposite x0) :: pos)) (t_names C) l = exchanged_odd (leg_odd ((c, opposite y0) :: pos)) (t_names C) l).
    { intro l. apply exchanged_ext. intros n Hn. unfold leg_odd. now rewrite (LC (opposite x0) (opposite y0) n Hn). }
    assert (OB : forall l, exchanged_odd (leg_odd ((b', y0) :: (b, opposite x0) :: pos)) (t_names B) l = exchanged_odd (leg_odd ((b, opposite x0) :: (b', y0) :: pos)) (t_names B) l).
    { intro l. apply exchanged_ext. intros n Hn. unfold leg_odd. now rewrite (LB (opposite x0) y0 n). }
    rewrite OA, OB, OC. set (P := (b, opposite x0) :: (b', y0) :: pos).
    assert (ND1 : NoDup (fA ++ fB)) by exact DAB.
    pose proof (orders (leg_odd P)) as Ho. rewrite !odd_plus in Ho.
    assert (Q1 : Nat.odd (exchanged_odd (leg_odd ((b', y0) :: pos)) (fA ++ fB) (fA ++ g ++ [b'])) = Nat.odd (exchanged_odd (leg_odd P) (fA ++ fB) (fA ++ g ++ [b']))).
    { rewrite !exchanged_app; try exact DAB; try apply Permutation_refl; try exact B_left. rewrite !(exchanged_self _ fA) by (apply free_nodup; apply WA). f_equal. f_equal.
      apply exchanged_ext. intros n Hn. apply free_in in Hn as [_ Hn]. unfold leg_odd, P. now rewrite (find_tail n b) by exact Hn. }
    assert (Q2 : Nat.odd (exchanged_odd (leg_odd ((b, opposite x0) :: pos)) (fB' ++ fC) (b :: g ++ fC)) = Nat.odd (exchanged_odd (leg_odd P) (fB' ++ fC) (b :: g ++ fC))).
    { change (b :: g ++ fC) with ((b :: g) ++ fC). rewrite !exchanged_app; try exact DBC; try apply Permutation_refl; try exact B_right. rewrite !(exchanged_self _ fC) by (apply free_nodup; apply WC). f_equal. f_equal.
      apply exchanged_ext. intros n Hn. apply free_in in Hn as [_ Hn]. unfold leg_odd, P. rewrite <- (LB (opposite x0) y0 n). now rewrite (find_tail n b') by exact Hn. }
    rewrite Q1, Q2.
    assert (Y1 : leg_odd ((b', y0) :: pos) b' = leg_odd ((b', y0) :: (b, opposite x0) :: pos) b') by (unfold leg_odd; now rewrite !find_head).
    assert (X1 : leg_odd ((a, x0) :: (b', y0) :: pos) a = leg_odd ((a, x0) :: pos) a) by (unfold leg_odd; now rewrite !find_head).
    rewrite Y1, X1. revert Ho.
    match goal with |- xorb ?u1 ?u2 = xorb ?u3 ?u4 -> xorb (xorb (xorb _ ?v1) ?v2) (xorb (xorb ?v3 _) ?v4) = _ => generalize u1, u2, u3, u4, v1, v2, v3, v4 end.
    clear. intros u1 u2 u3 u4 v1 v2 v3 v4. destruct u1, u2, u3, u4, v1, v2, v3, v4; cbn; congruence.
  Qed.
End Three.

Section Stated.
  Context {S R : Type} {SS : Sym S} {SL : SymLaws S} {RR : Scalar R}.
  Local Notation en t n := (edge_named (legs_of t) n).

  Lemma arrow_valid_maps : forall e e' : edge S, emap e = emap e' -> arrow_valid e = arrow_valid e'.
  Proof. intros e e' H. unfold arrow_valid. now rewrite H. Qed.

  Theorem contract_chain : @is_nosym S SS = false -> exact_arithmetic R -> associative_product R -> distributive_product R -> (is_fermi = true -> exact_negation R) ->
    forall (E E1 E2 E3 : @env R) (I : internal) (A B C : tensor S R) (a b b' c : nat), i_contract_1 I <> i_contract_2 I ->
    wf_tensor A -> wf_tensor B -> wf_tensor C -> t_blocks A <> [] -> t_blocks B <> [] ->
    In a (t_names A) -> In b (t_names B) -> In b' (t_names B) -> In c (t_names C) -> b <> b' ->
    (forall s d, In (s, d) (emap (en A a)) <-> In (sneg s, d) (emap (en B b))) -> (is_fermi = true -> earrow (en A a) = negb (earrow (en B b))) ->
    (forall s d, In (s, d) (emap (en B b')) <-> In (sneg s, d) (emap (en C c))) -> (is_fermi = true -> earrow (en B b') = negb (earrow (en C c))) ->
    NoDup (free_names (t_names A) [a] ++ free_names (t_names B) [b]) -> NoDup (free_names (t_names B) [b'] ++ free_names (t_names C) [c]) ->
    NoDup (free_names (t_names A) [a] ++ free_names (t_names B) [b; b'] ++ free_names (t_names C) [c]) ->
    (is_fermi = true -> (forall t n, t = A \/ t = B \/ t = C -> In n (t_names t) -> arrow_valid (en t n) = true) /\
      forall E0, In E0 [E; E1; E2; E3] -> env_arrow E0 <> None \/ (free_names (t_names A) [a] <> [] /\ free_names (t_names C) [c] <> [])) ->
    exists AB ABC BC ABC', contract E I A B [(a, b)] = Ok AB /\ contract E1 I AB C [(b', c)] = Ok ABC /\ contract E2 I B C [(b', c)] = Ok BC /\ contract E3 I A BC [(a, b)] = Ok ABC' /\
      t_names ABC = free_names (t_names A) [a] ++ free_names (t_names B) [b; b'] ++ free_names (t_names C) [c] /\
      t_names ABC' = t_names ABC /\ map emap (t_edges ABC') = map emap (t_edges ABC) /\ (is_fermi = true -> t_edges ABC' = t_edges ABC) /\ t_blocks ABC' = t_blocks ABC.
  Proof.
    intros Ns EA AP DP HN E E1 E2 E3 I A B C a b b' c HI WA WB WC BA BB Ia Ib Ib' Ic Hbb HM1 HA1 HM2 HA2 DAB DBC DD HV.
    assert (FAB : faces A B a b) by (split; assumption). assert (FBC : faces B C b' c) by (split; assumption). clear HM1 HA1 HM2 HA2.
    assert (K : forall (E0 : @env R) (t : tensor S R) l, is_fermi = true -> env_arrow E0 <> None \/ l <> [] -> (forall n, In n l -> arrow_valid (en t n) = true) -> group_arrow_known (env_arrow E0) t l).
    { intros E0 t l F [H|H] Hv; [now left|]. right. right. destruct l as [|n l]; [congruence|]. exists n. split; [now left|]. apply Hv. now left. }
    assert (NB : In b' (free_names (t_names B) [b])) by (apply free_in; auto). assert (NB' : In b (free_names (t_names B) [b'])) by (apply free_in; auto).
    assert (ne : forall (n : nat) l, In n l -> l <> []) by (intros n l H ->; destruct H).
    destruct (product_of Ns EA HN E I A B a b HI WA WB BA Ia Ib FAB DAB) as [AB [CAB PAB]].
    { intro F. destruct (HV F) as [V1 V2]. destruct (V2 E) as [V|[V V']]; [now left| |]; (split; apply K; auto; try (left; exact V); try (right; eapply ne; eauto); intros n Hn; apply V1; auto; now apply free_in in Hn). }
    destruct (product_of Ns EA HN E2 I B C b' c HI WB WC BB Ib' Ic FBC DBC) as [BC [CBC PBC]].
    { intro F. destruct (HV F) as [V1 V2]. destruct (V2 E2) as [V|[V V']]; [right; right; now left| |]; (split; apply K; auto; try (left; exact V); try (right; eapply ne; eauto); intros n Hn; apply V1; auto; now apply free_in in Hn). }
    assert (LF := left_free A B AB a b b' Ib' Hbb PAB DAB).
    assert (RF := right_free B C BC b b' c Ib Hbb PBC DBC).
    assert (HAB : In b' (t_names AB)) by (rewrite (p_names _ _ _ _ _ PAB); apply in_or_app; auto).
    assert (HBC : In b (t_names BC)) by (rewrite (p_names _ _ _ _ _ PBC); apply in_or_app; auto).
    assert (gB : forall n, In n (free_names (t_names B) [b; b']) -> In n (free_names (t_names B) [b]) /\ In n (free_names (t_names B) [b']) /\ In n (t_names B)).
    { intros n Hn. rewrite <- free_free in Hn. rewrite !free_in in *. tauto. }
    destruct (product_of Ns EA HN E1 I AB C b' c HI (p_wf _ _ _ _ _ PAB) WC (p_blocks _ _ _ _ _ PAB) HAB Ic) as [ABC [CABC PABC]].
    { destruct FBC as [F1 F2]. split.
      - intro F. rewrite (p_arrow2 _ _ _ _ _ PAB F b' NB (proj1 (HV F) B b' (or_intror (or_introl eq_refl)) Ib')). auto.
      - rewrite (p_right _ _ _ _ _ PAB b' NB). exact F2. }
    { rewrite LF, <- app_assoc. exact DD. }
    { intro F. destruct (HV F) as [V1 V2]. rewrite LF. destruct (V2 E1) as [V|[V V']]; [right; now left| |]; (split; apply K; auto; try (left; exact V); try (right; destruct (free_names (t_names A) [a]); [congruence|discriminate]); intros n Hn).
      1, 3: apply in_app_or in Hn as [Hn|Hn]; [rewrite (arrow_valid_maps _ _ (p_left _ _ _ _ _ PAB n Hn)); apply V1; auto; now apply free_in in Hn|rewrite (arrow_valid_maps _ _ (p_right _ _ _ _ _ PAB n (proj1 (gB n Hn)))); apply V1; auto; now apply gB].
      all: apply V1; auto; now apply free_in in Hn. }
    destruct (product_of Ns EA HN E3 I A BC a b HI WA (p_wf _ _ _ _ _ PBC) BA Ia HBC) as [ABC' [CABC' PABC']].
    { destruct FAB as [F1 F2]. split.
      - intro F. rewrite (p_arrow1 _ _ _ _ _ PBC F b NB' (proj1 (HV F) B b (or_intror (or_introl eq_refl)) Ib)). auto.
      - rewrite (p_left _ _ _ _ _ PBC b NB'). exact F2. }
    { rewrite RF. exact DD. }
    { intro F. destruct (HV F) as [V1 V2]. rewrite RF. destruct (V2 E3) as [V|[V V']]; [right; right; right; now left| |]; (split; apply K; auto; try (left; exact V); try (right; intro Hc; apply app_eq_nil in Hc as [_ Hc]; congruence); intros n Hn).
      2, 4: apply in_app_or in Hn as [Hn|Hn]; [rewrite (arrow_valid_maps _ _ (p_left _ _ _ _ _ PBC n (proj1 (proj2 (gB n Hn))))); apply V1; auto; now apply gB|rewrite (arrow_valid_maps _ _ (p_right _ _ _ _ _ PBC n Hn)); apply V1; auto; now apply free_in in Hn].
      all: apply V1; auto; now apply free_in in Hn. }
    exists AB, ABC, BC, ABC'. split; [exact CAB|]. split; [exact CABC|]. split; [exact CBC|]. split; [exact CABC'|].
    assert (N1 : t_names ABC = free_names (t_names A) [a] ++ free_names (t_names B) [b; b'] ++ free_names (t_names C) [c]) by (rewrite (p_names _ _ _ _ _ PABC), LF, <- app_assoc; reflexivity).
    assert (N2 : t_names ABC' = free_names (t_names A) [a] ++ free_names (t_names B) [b; b'] ++ free_names (t_names C) [c]) by (rewrite (p_names _ _ _ _ _ PABC'), RF; reflexivity).
    split; [exact N1|]. split; [congruence|].
    assert (M1 : maps_of (t_edges ABC) = map (fun n => emap (en A n)) (free_names (t_names A) [a]) ++ map (fun n => emap (en B n)) (free_names (t_names B) [b; b']) ++ map (fun n => emap (en C n)) (free_names (t_names C) [c])).
    { rewrite (p_maps _ _ _ _ _ PABC), LF, map_app, <- app_assoc. f_equal; [|f_equal]; apply map_ext_in; intros n Hn; [apply (p_left _ _ _ _ _ PAB n Hn)|apply (p_right _ _ _ _ _ PAB n); now apply gB]. }
    assert (M2 : maps_of (t_edges ABC') = map (fun n => emap (en A n)) (free_names (t_names A) [a]) ++ map (fun n => emap (en B n)) (free_names (t_names B) [b; b']) ++ map (fun n => emap (en C n)) (free_names (t_names C) [c])).
    { rewrite (p_maps _ _ _ _ _ PABC'), RF, map_app. f_equal; f_equal; apply map_ext_in; intros n Hn; [apply (p_left _ _ _ _ _ PBC n); now apply gB|apply (p_right _ _ _ _ _ PBC n Hn)]. }
    assert (MM : maps_of (t_edges ABC') = maps_of (t_edges ABC)) by congruence. split; [exact MM|].
    assert (BB' : t_blocks ABC' = t_blocks ABC).
    { apply blocks_ext; [exact (p_wf _ _ _ _ _ PABC)|exact (p_wf _ _ _ _ _ PABC')|congruence|exact MM|].
      intros pos pt Ha Hv. assert (Hpt := assigns_coord _ _ _ Ha). subst pt.
      rewrite (p_at _ _ _ _ _ PABC pos Ha Hv). rewrite (p_at _ _ _ _ _ PABC' pos).
      - f_equal. symmetry. apply (chain_sum EA AP DP HN A B C AB BC a b b' c WA WB WC Ia Ib Ib' Ic Hbb FAB FBC PAB PBC DAB DBC).
        + intro F. apply (proj1 (HV F)); auto.
        + rewrite <- N1. exact Ha.
        + destruct Hv as [Hv _]. change (c_edges (t_core ABC)) with (t_edges ABC) in Hv. rewrite M1, N1 in Hv. exact Hv.
      - rewrite N2, <- N1. exact Ha.
      - rewrite N2, <- N1. unfold valid_pt in *. change (c_edges (t_core ABC')) with (t_edges ABC'). rewrite MM. exact Hv. }
    split; [|exact BB']. intro F. destruct (HV F) as [V1 _].
    rewrite <- (legs_to_edges ABC (p_wf _ _ _ _ _ PABC)), <- (legs_to_edges ABC' (p_wf _ _ _ _ _ PABC')). fold (legs_of ABC) (legs_of ABC'). rewrite N1, N2.
    assert (EQ : forall n, emap (en ABC' n) = emap (en ABC n) -> earrow (en ABC' n) = earrow (en ABC n) -> en ABC' n = en ABC n).
    { intros n. destruct (en ABC' n), (en ABC n). cbn. congruence. }
    apply map_ext_in. intros n Hn. apply in_app_or in Hn as [Hn|Hn]; [|apply in_app_or in Hn as [Hn|Hn]].
    - assert (In1 : In n (free_names (t_names AB) [b'])) by (rewrite LF; apply in_or_app; auto). assert (HnA := proj1 (proj1 (free_in _ _ _) Hn)).
      apply EQ.
      + rewrite (p_left _ _ _ _ _ PABC' n Hn), (p_left _ _ _ _ _ PABC n In1), (p_left _ _ _ _ _ PAB n Hn). reflexivity.
      + rewrite (p_arrow1 _ _ _ _ _ PABC' F n Hn) by auto. rewrite (p_arrow1 _ _ _ _ _ PABC F n In1); [symmetry; apply (p_arrow1 _ _ _ _ _ PAB F n Hn); auto|]. rewrite (arrow_valid_maps _ _ (p_left _ _ _ _ _ PAB n Hn)). auto.
    - destruct (gB n Hn) as [G1 [G2 G3]]. assert (In1 : In n (free_names (t_names AB) [b'])) by (rewrite LF; apply in_or_app; auto). assert (In2 : In n (free_names (t_names BC) [b])) by (rewrite RF; apply in_or_app; auto).
      assert (VB : arrow_valid (en B n) = true) by auto.
      apply EQ.
      + rewrite (p_right _ _ _ _ _ PABC' n In2), (p_left _ _ _ _ _ PABC n In1), (p_right _ _ _ _ _ PAB n G1), (p_left _ _ _ _ _ PBC n G2). reflexivity.
      + rewrite (p_arrow2 _ _ _ _ _ PABC' F n In2); [|now rewrite (arrow_valid_maps _ _ (p_left _ _ _ _ _ PBC n G2))].
        rewrite (p_arrow1 _ _ _ _ _ PABC F n In1); [|now rewrite (arrow_valid_maps _ _ (p_right _ _ _ _ _ PAB n G1))].
        rewrite (p_arrow1 _ _ _ _ _ PBC F n G2 VB), (p_arrow2 _ _ _ _ _ PAB F n G1 VB). reflexivity.
    - assert (In2 : In n (free_names (t_names BC) [b])) by (rewrite RF; apply in_or_app; auto). assert (VC : arrow_valid (en C n) = true) by (apply V1; auto; now apply free_in in Hn).
      apply EQ.
      + rewrite (p_right _ _ _ _ _ PABC' n In2), (p_right _ _ _ _ _ PABC n Hn), (p_right _ _ _ _ _ PBC n Hn). reflexivity.
      + rewrite (p_arrow2 _ _ _ _ _ PABC F n Hn VC). rewrite (p_arrow2 _ _ _ _ _ PABC' F n In2); [apply (p_arrow2 _ _ _ _ _ PBC F n Hn VC)|]. now rewrite (arrow_valid_maps _ _ (p_right _ _ _ _ _ PBC n Hn)).
  Qed.
End Stated.
