(** Contracting three tensors without symmetry, in either order. *)
From Coq Require Import String Ascii List Bool Arith Lia Sorted Permutation.
From Verif Require Import Base.Outcome Base.SMap Model.Symmetry Model.Edge Model.Core Model.EdgeOperator Model.Contract Model.Misc
  Spec.Blocks Spec.Fuse Spec.Relabel Spec.Contract Spec.Plain Spec.Svd Spec.Grid Proof.SymmetryFacts Proof.LoopFacts Proof.CoreFacts Proof.ElemFacts Proof.LegFacts Proof.SumFacts Proof.TransposeNames Proof.NamedOperator Proof.RenameFacts
  Proof.RegroupFacts Proof.ContractNames Proof.MergeNames Proof.ContractPlain Proof.HotContract Proof.PlainFacts Proof.PlainElem Proof.SumBonds Proof.FactorFacts Proof.ExactApply.
Import ListNotations.

Lemma free_spec : forall names l n, In n (free_names names l) <-> In n names /\ ~ In n l.
Proof.
  intros names l n. unfold free_names. rewrite filter_In, negb_true_iff. split; intros [H1 H2]; (split; [exact H1|]).
  - intro Hc. apply (member_In n l) in Hc. congruence.
  - destruct (member n l) eqn:E; [|reflexivity]. apply (member_In n l) in E. contradiction.
Qed.
Lemma free_same : forall names l l', (forall n, In n names -> (In n l <-> In n l')) -> free_names names l = free_names names l'.
Proof.
  intros names l l' H. unfold free_names. apply filter_ext_in. intros n Hn. f_equal. specialize (H n Hn).
  destruct (member n l) eqn:E1, (member n l') eqn:E2; auto; exfalso.
  - apply (member_In n l) in E1. apply H in E1. apply (member_In n l') in E1. congruence.
  - apply (member_In n l') in E2. apply H in E2. apply (member_In n l) in E2. congruence.
Qed.
Lemma free_twice : forall names l l', free_names (free_names names l) l' = free_names names (l ++ l').
Proof.
  intros names l l'. unfold free_names. induction names as [|x names IH]; [reflexivity|]. cbn [filter]. unfold member in *. rewrite existsb_app.
  destruct (existsb (Nat.eqb x) l) eqn:E1; cbn [negb orb filter].
  - exact IH.
  - rewrite IH. reflexivity.
Qed.
Lemma find_apps : forall (l1 l2 : list nat) (i1 i2 : list nat) n, length l1 = length i1 ->
  mfind n (combine (l1 ++ l2) (i1 ++ i2)) = match mfind n (combine l1 i1) with Some x => Some x | None => mfind n (combine l2 i2) end.
Proof.
  induction l1 as [|x l1 IH]; intros l2 i1 i2 n H; destruct i1 as [|y i1]; try discriminate H; [reflexivity|]. cbn [app combine mfind]. destruct (eqb n x); [reflexivity|]. apply IH. now injection H.
Qed.

Section Plain.
  Context {R : Type} {RR : Scalar R}.
  Hypothesis EA : exact_arithmetic R.
  Hypothesis MA : associative_product R.
  Hypothesis MD : distributive_product R.
  Implicit Types t r : tensor unit R.
  Local Notation en t n := (edge_named (legs_of t) n).

  Lemma find_map : forall (V : Type) (f : nat -> V) l n, mfind n (map (fun n => (n, f n)) l) = if member n l then Some (f n) else None.
  Proof.
    intros V f l n. induction l as [|m l IH]; [reflexivity|]. cbn [map mfind]. unfold member in *. cbn [existsb]. destruct (Nat.eqb_spec n m) as [->|D]; [now rewrite eqb_refl|]. rewrite (neqb n m D). exact IH.
  Qed.
  Definition slots_of t : slots := map (fun n => (n, dimension t n)) (t_names t).
  Lemma slot_of : forall t n, wf_tensor t -> slot (slots_of t) n = dimension t n.
  Proof.
    intros t n W. unfold slot, slots_of. rewrite find_map. destruct (member n (t_names t)) eqn:E; [reflexivity|].
    destruct (dimension t n) eqn:D; [|reflexivity]. assert (H : In n (t_names t)) by (apply (dimension_named t n W); congruence). apply (member_In n) in H. congruence.
  Qed.
  Lemma has_of : forall t, wf_tensor t -> t_blocks t <> [] -> has t (slots_of t).
  Proof. intros t W B. constructor; auto. intro n. symmetry. now apply slot_of. Qed.
  Lemma keys_of : forall l t, keys (without l (slots_of t)) = free_names (t_names t) l.
  Proof.
    intros l t. unfold keys, without, slots_of, free_names. induction (t_names t) as [|n ns IH]; [reflexivity|]. cbn [map filter fst]. destruct (negb (member n l)); cbn [map fst]; now rewrite IH.
  Qed.

  (** what a contraction gives *)
  Record joined t1 t2 r (pairs : list (nat * nat)) : Prop := {
    j_wf : wf_tensor r;
    j_block : t_blocks r <> [];
    j_names : t_names r = free_names (t_names t1) (map fst pairs) ++ free_names (t_names t2) (map snd pairs);
    j_left : forall n, In n (free_names (t_names t1) (map fst pairs)) -> en r n = en t1 n /\ dimension r n = dimension t1 n;
    j_right : forall n, In n (free_names (t_names t2) (map snd pairs)) -> en r n = en t2 n /\ dimension r n = dimension t2 n;
    j_value : forall a, (forall n, In n (t_names r) -> index a n < size (dimension r n)) ->
      value r a = Sums (map (fun p => size (dimension t1 (fst p))) pairs) (product t1 t2 pairs a) }.

  Lemma joined_of : forall (E : @env R) (J : internal) t1 t2 pairs, NoDup [i_contract_0 J; i_contract_1 J; i_contract_2 J] ->
    wf_tensor t1 -> wf_tensor t2 -> t_blocks t1 <> [] -> t_blocks t2 <> [] -> incl (map fst pairs) (t_names t1) -> incl (map snd pairs) (t_names t2) ->
    NoDup (map fst pairs) -> NoDup (map snd pairs) -> (forall a b, In (a, b) pairs -> dimension t1 a = dimension t2 b) ->
    (forall n, In n (free_names (t_names t1) (map fst pairs)) -> In n (free_names (t_names t2) (map snd pairs)) -> False) ->
    exists r, contract E J t1 t2 pairs = Ok r /\ joined t1 t2 r pairs.
  Proof.
    intros E J t1 t2 pairs HJ W1 W2 B1 B2 I1 I2 N1 N2 HD HX.
    destruct (contract_has EA E J HJ t1 t2 (slots_of t1) (slots_of t2) pairs (has_of t1 W1 B1) (has_of t2 W2 B2) N1 N2) as [r [H1 [H2 H3]]].
    { intros a b Hab. rewrite !slot_of by assumption. auto. } { intros n. rewrite !keys_of. apply HX. }
    exists r. split; [exact H1|].
    destruct (contract_plain_at Ns Nf EA E J t1 t2 pairs HJ W1 W2 B1 B2 I1 I2 N1 N2) as [r' [fused [G1 [G2 [G3 [G4 [G5 [G6 [G7 _]]]]]]]]].
    { intros a b Hab. specialize (HD a b Hab). assert (Ha : In a (t_names t1)) by (apply I1, in_map_iff; now exists (a, b)). assert (Hb : In b (t_names t2)) by (apply I2, in_map_iff; now exists (a, b)).
      destruct (dimension_of t1 a W1 B1 Ha) as [D1 ->]. destruct (dimension_of t2 b W2 B2 Hb) as [D2 ->]. congruence. }
    { intros n Hn1 Hn2 Hn3 Hn4. exfalso. apply (HX n); apply free_spec; auto. }
    rewrite H1 in G1. injection G1 as <-. assert (F0 : fused = []).
    { destruct fused as [|x fused]; [reflexivity|]. exfalso. destruct (proj1 (G5 x) (or_introl eq_refl)) as [X1 [X2 [X3 X4]]]. apply (HX x); apply free_spec; auto. }
    subst fused. rewrite !app_nil_r in G6, G7. cbn [app] in G6, G7.
    set (f1 := free_names (t_names t1) (map fst pairs)) in *. set (f2 := free_names (t_names t2) (map snd pairs)) in *.
    assert (L : legs_of r = map (fun n => (n, en t1 n)) f1 ++ map (fun n => (n, en t2 n)) f2).
    { unfold legs_of at 1. rewrite G6, G7. clear. induction f1 as [|x l IH]; cbn [app map combine].
      - induction f2 as [|x l IH]; cbn [map combine]; [reflexivity|now rewrite IH].
      - now rewrite IH. }
    assert (LF : forall n, In n f1 -> mfind n (legs_of r) = Some (en t1 n)). { intros n Hn. rewrite L, mfind_app, find_map. apply (member_In n f1) in Hn. now rewrite Hn. }
    assert (LR : forall n, In n f2 -> mfind n (legs_of r) = Some (en t2 n)).
    { intros n Hn. rewrite L, mfind_app, !find_map. destruct (member n f1) eqn:Em; [apply (member_In n f1) in Em; exfalso; exact (HX n Em Hn)|]. apply (member_In n f2) in Hn. now rewrite Hn. }
    assert (Dn : forall t n, wf_tensor t -> In n (t_names t) -> mfind n (legs_of r) = Some (en t n) -> dimension r n = dimension t n).
    { intros t n W Hn Hf. unfold dimension at 1. rewrite Hf. exact (dimension_in t n W Hn). }
    constructor; auto.
    - intros n Hn. split; [unfold edge_named at 1; now rewrite (LF n Hn)|]. apply (Dn t1 n W1); [now apply free_spec in Hn|now apply LF].
    - intros n Hn. split; [unfold edge_named at 1; now rewrite (LR n Hn)|]. apply (Dn t2 n W2); [now apply free_spec in Hn|now apply LR].
    - intros a Ha. rewrite H3.
      + f_equal. apply map_ext. intro p. now rewrite slot_of by assumption.
      + intro n. rewrite <- (h_dim _ _ H2 n). destruct (dimension r n) eqn:D; [|now right]. left. rewrite <- D. apply Ha. apply (dimension_named r n G2). congruence.
  Qed.

  Lemma value_same : forall t a b, wf_tensor t -> t_blocks t <> [] -> (forall n, In n (t_names t) -> index a n = index b n) -> value t a = value t b.
  Proof. intros t a b W B H. apply (value_ext t (slots_of t) a b (has_of t W B)). intros n Hn. apply H. rewrite slot_of in Hn by exact W. now apply (dimension_named t n W). Qed.

  (** tensors with the same names, edges and values *)
  Lemma same_tensor : forall t r, wf_tensor t -> wf_tensor r -> t_blocks t <> [] -> t_blocks r <> [] -> t_names r = t_names t -> t_edges r = t_edges t ->
    (forall a, (forall n, In n (t_names t) -> index a n < size (dimension t n)) -> value r a = value t a) -> r = t.
  Proof.
    intros t r W Wr B Br Hn He Hv. assert (Bl : t_blocks r = t_blocks t).
    { apply blocks_ext; auto; [now rewrite He|]. intros pos pt Ha [Hr _]. set (a := map (fun n => (n, snd (coord pos n))) (t_names t)).
      change (c_edges (t_core t)) with (t_edges t) in Hr. rewrite (plain_maps Ns t W B) in Hr. apply plain_point in Hr as [idx [-> Hidx]].
      assert (Hpos : forall n, In n (t_names t) -> mfind n pos = Some (tt, index a n) /\ index a n < size (dimension t n)).
      { intros n Hin. assert (Ei : index a n = snd (coord pos n)). { unfold index, a. rewrite find_map. apply (member_In n) in Hin. now rewrite Hin. }
        apply In_nth_error in Hin as [i Hi]. assert (HL : length idx = length (t_names t)) by (apply Forall2_len in Hidx; rewrite map_length in Hidx; exact Hidx).
        destruct (nth_same_length _ _ _ idx _ _ (eq_sym HL) Hi) as [x Hx].
        assert (Hq : mfind n pos = Some (tt, x)).
        { unfold assigns in Ha. apply (f_equal (fun l => nth_error l i)) in Ha. rewrite !nth_error_map, Hi, Hx in Ha. cbn [option_map] in Ha. now injection Ha. }
        unfold coord in Ei. rewrite Hq in Ei. cbn [snd] in Ei. rewrite Ei. split; [exact Hq|].
        rewrite (proj1 (dimension_of t n W B (nth_error_In _ _ Hi))). cbn [size]. apply (Forall2_nth_error _ _ _ _ _ Hidx i _ _ Hx). rewrite nth_error_map, Hi. reflexivity. }
      assert (Hs : in_slots (slots_of t) a). { intro n. rewrite slot_of by exact W. destruct (dimension t n) eqn:D; [|now right]. left. rewrite <- D. apply Hpos. apply (dimension_named t n W). congruence. }
      rewrite (read_at t (slots_of t) a pos (has_of t W B) Hs (fun n H => proj1 (Hpos n H))).
      rewrite (read_at r (slots_of r) a pos (has_of r Wr Br)).
      - f_equal. apply Hv. intros n Hin. now apply Hpos.
      - assert (Es : slots_of r = slots_of t) by (unfold slots_of; rewrite Hn; apply map_ext; intro n; unfold dimension, legs_of; now rewrite Hn, He). now rewrite Es.
      - intros n Hin. rewrite Hn in Hin. now apply Hpos. }
    destruct t as [tn [te tb]], r as [rn [re rb]]. cbn in *. congruence.
  Qed.

  Theorem associate : forall (E E1 E2 E3 : @env R) (J : internal) (A B C : tensor unit R) (ab bc ac : list (nat * nat)), NoDup [i_contract_0 J; i_contract_1 J; i_contract_2 J] ->
    wf_tensor A -> wf_tensor B -> wf_tensor C -> t_blocks A <> [] -> t_blocks B <> [] -> t_blocks C <> [] ->
    incl (map fst ab ++ map fst ac) (t_names A) -> incl (map snd ab ++ map fst bc) (t_names B) -> incl (map snd bc ++ map snd ac) (t_names C) ->
    NoDup (map fst ab ++ map fst ac) -> NoDup (map snd ab ++ map fst bc) -> NoDup (map snd bc ++ map snd ac) ->
    (forall x y, In (x, y) ab -> dimension A x = dimension B y) -> (forall x y, In (x, y) bc -> dimension B x = dimension C y) -> (forall x y, In (x, y) ac -> dimension A x = dimension C y) ->
    (forall n, In n (free_names (t_names A) (map fst ab)) -> In n (free_names (t_names B) (map snd ab)) -> False) ->
    (forall n, In n (free_names (t_names B) (map fst bc)) -> In n (free_names (t_names C) (map snd bc)) -> False) ->
    (forall n, In n (free_names (t_names A) (map fst ab ++ map fst ac)) -> In n (free_names (t_names C) (map snd bc ++ map snd ac)) -> False) ->
    exists AB BC r, contract E J A B ab = Ok AB /\ contract E1 J B C bc = Ok BC /\
      contract E2 J AB C (bc ++ ac) = Ok r /\ contract E3 J A BC (ab ++ ac) = Ok r /\
      t_names r = free_names (t_names A) (map fst ab ++ map fst ac) ++ free_names (t_names B) (map snd ab ++ map fst bc) ++ free_names (t_names C) (map snd bc ++ map snd ac).
  Proof.
    intros E E1 E2 E3 J A B C ab bc ac HJ WA WB WC BA BB BC IA IB IC NA NB NC Dab Dbc Dac Xab Xbc Xac.
    destruct (NoDup_app_inv _ _ _ NA) as [NA1 [NA2 NA3]]. destruct (NoDup_app_inv _ _ _ NB) as [NB1 [NB2 NB3]]. destruct (NoDup_app_inv _ _ _ NC) as [NC1 [NC2 NC3]].
    assert (IA1 : incl (map fst ab) (t_names A)) by (intros x Hx; apply IA, in_or_app; auto). assert (IA2 : incl (map fst ac) (t_names A)) by (intros x Hx; apply IA, in_or_app; auto).
    assert (IB1 : incl (map snd ab) (t_names B)) by (intros x Hx; apply IB, in_or_app; auto). assert (IB2 : incl (map fst bc) (t_names B)) by (intros x Hx; apply IB, in_or_app; auto).
    assert (IC1 : incl (map snd bc) (t_names C)) by (intros x Hx; apply IC, in_or_app; auto). assert (IC2 : incl (map snd ac) (t_names C)) by (intros x Hx; apply IC, in_or_app; auto).
    destruct (joined_of E J A B ab HJ WA WB BA BB IA1 IB1 NA1 NB1 Dab Xab) as [AB [CAB JAB]].
    destruct (joined_of E1 J B C bc HJ WB WC BB BC IB2 IC1 NB2 NC1 Dbc Xbc) as [BC' [CBC JBC]].
    set (fA := free_names (t_names A) (map fst ab)) in *. set (fB := free_names (t_names B) (map snd ab)) in *.
    set (gB := free_names (t_names B) (map fst bc)) in *. set (gC := free_names (t_names C) (map snd bc)) in *.
    assert (FA2 : forall n, In n (map fst ac) -> In n fA) by (intros n Hn; apply free_spec; split; [auto|intro Hc; exact (NA3 n Hc Hn)]).
    assert (FB2 : forall n, In n (map fst bc) -> In n fB) by (intros n Hn; apply free_spec; split; [auto|intro Hc; exact (NB3 n Hc Hn)]).
    assert (GB1 : forall n, In n (map snd ab) -> In n gB) by (intros n Hn; apply free_spec; split; [auto|intro Hc; exact (NB3 n Hn Hc)]).
    assert (GC2 : forall n, In n (map snd ac) -> In n gC) by (intros n Hn; apply free_spec; split; [auto|intro Hc; exact (NC3 n Hc Hn)]).
    (* remaining names *)
    assert (F1 : free_names (t_names AB) (map fst (bc ++ ac)) = free_names (t_names A) (map fst ab ++ map fst ac) ++ free_names (t_names B) (map snd ab ++ map fst bc)).
    { rewrite (j_names _ _ _ _ JAB), map_app. unfold free_names at 1. rewrite filter_app. fold (free_names fA (map fst bc ++ map fst ac)) (free_names fB (map fst bc ++ map fst ac)).
      rewrite <- !free_twice. fold fA fB. f_equal; apply free_same; intros n Hn; rewrite in_app_iff; split; auto; intros [H|H]; auto; exfalso; [exact (Xab n Hn (FB2 n H))|exact (Xab n (FA2 n H) Hn)]. }
    assert (F2 : free_names (t_names BC') (map snd (ab ++ ac)) = free_names (t_names B) (map snd ab ++ map fst bc) ++ free_names (t_names C) (map snd bc ++ map snd ac)).
    { rewrite (j_names _ _ _ _ JBC), map_app. unfold free_names at 1. rewrite filter_app. fold (free_names gB (map snd ab ++ map snd ac)) (free_names gC (map snd ab ++ map snd ac)).
      rewrite (free_same (t_names B) (map snd ab ++ map fst bc) (map fst bc ++ map snd ab)) by (intros n _; rewrite !in_app_iff; tauto).
      rewrite <- !free_twice. fold gB gC. f_equal; apply free_same; intros n Hn; rewrite in_app_iff; split; auto; intros [H|H]; auto; exfalso; [exact (Xbc n Hn (GC2 n H))|exact (Xbc n (GB1 n H) Hn)]. }
    assert (gg : forall n, In n (free_names (t_names B) (map snd ab ++ map fst bc)) -> In n fB /\ In n gB).
    { intros n Hn. apply free_spec in Hn as [H1 H2]. rewrite in_app_iff in H2. split; apply free_spec; tauto. }
    assert (ga : forall n, In n (free_names (t_names A) (map fst ab ++ map fst ac)) -> In n fA). { intros n Hn. apply free_spec in Hn as [H1 H2]. rewrite in_app_iff in H2. apply free_spec; tauto. }
    assert (gc : forall n, In n (free_names (t_names C) (map snd bc ++ map snd ac)) -> In n gC). { intros n Hn. apply free_spec in Hn as [H1 H2]. rewrite in_app_iff in H2. apply free_spec; tauto. }
    assert (NAB := j_names _ _ _ _ JAB). assert (NBC := j_names _ _ _ _ JBC). fold fA fB in NAB. fold gB gC in NBC.
    assert (DAl : forall n, In n fA -> dimension AB n = dimension A n) by (intros n Hn; apply (j_left _ _ _ _ JAB n Hn)).
    assert (DAr : forall n, In n fB -> dimension AB n = dimension B n) by (intros n Hn; apply (j_right _ _ _ _ JAB n Hn)).
    assert (DBl : forall n, In n gB -> dimension BC' n = dimension B n) by (intros n Hn; apply (j_left _ _ _ _ JBC n Hn)).
    assert (DBr : forall n, In n gC -> dimension BC' n = dimension C n) by (intros n Hn; apply (j_right _ _ _ _ JBC n Hn)).
    destruct (joined_of E2 J AB C (bc ++ ac) HJ (j_wf _ _ _ _ JAB) WC (j_block _ _ _ _ JAB) BC) as [r [CR JR]].
    { rewrite map_app, NAB. intros n Hn. apply in_app_or in Hn as [Hn|Hn]; apply in_or_app; auto. } { rewrite map_app. exact IC. }
    { rewrite map_app. apply NoDup_app_intro; auto. intros n H1 H2. exact (Xab n (FA2 n H2) (FB2 n H1)). } { rewrite map_app. exact NC. }
    { intros x y Hxy. apply in_app_or in Hxy as [Hxy|Hxy]; [rewrite (DAr x (FB2 x (in_map fst _ _ Hxy)))|rewrite (DAl x (FA2 x (in_map fst _ _ Hxy)))]; auto. }
    { rewrite F1, map_app. intros n H1 H2. apply in_app_or in H1 as [H1|H1]; [exact (Xac n H1 H2)|]. exact (Xbc n (proj2 (gg n H1)) (gc n H2)). }
    destruct (joined_of E3 J A BC' (ab ++ ac) HJ WA (j_wf _ _ _ _ JBC) BA (j_block _ _ _ _ JBC)) as [r' [CR' JR']].
    { rewrite map_app. exact IA. } { rewrite map_app, NBC. intros n Hn. apply in_app_or in Hn as [Hn|Hn]; apply in_or_app; auto. }
    { rewrite map_app. exact NA. } { rewrite map_app. apply NoDup_app_intro; auto. intros n H1 H2. exact (Xbc n (GB1 n H1) (GC2 n H2)). }
    { intros x y Hxy. apply in_app_or in Hxy as [Hxy|Hxy]; [rewrite (DBl y (GB1 y (in_map snd _ _ Hxy)))|rewrite (DBr y (GC2 y (in_map snd _ _ Hxy)))]; auto. }
    { rewrite F2, map_app. intros n H1 H2. apply in_app_or in H2 as [H2|H2]; [exact (Xab n (ga n H1) (proj1 (gg n H2)))|exact (Xac n H1 H2)]. }
    assert (N1 : t_names r = free_names (t_names A) (map fst ab ++ map fst ac) ++ free_names (t_names B) (map snd ab ++ map fst bc) ++ free_names (t_names C) (map snd bc ++ map snd ac)).
    { rewrite (j_names _ _ _ _ JR), F1, <- app_assoc, map_app. reflexivity. }
    assert (N2 : t_names r' = free_names (t_names A) (map fst ab ++ map fst ac) ++ free_names (t_names B) (map snd ab ++ map fst bc) ++ free_names (t_names C) (map snd bc ++ map snd ac)).
    { rewrite (j_names _ _ _ _ JR'), F2, map_app. reflexivity. }
    (* edges and dimensions *)
    assert (XR : forall n, In n (free_names (t_names AB) (map fst (bc ++ ac))) -> en r n = en AB n /\ dimension r n = dimension AB n) by exact (j_left _ _ _ _ JR).
    assert (XR' : forall n, In n (free_names (t_names BC') (map snd (ab ++ ac))) -> en r' n = en BC' n /\ dimension r' n = dimension BC' n) by exact (j_right _ _ _ _ JR').
    rewrite F1 in XR. rewrite F2 in XR'.
    assert (YR : forall n, In n (free_names (t_names C) (map snd bc ++ map snd ac)) -> en r n = en C n /\ dimension r n = dimension C n) by (rewrite <- map_app; exact (j_right _ _ _ _ JR)).
    assert (YR' : forall n, In n (free_names (t_names A) (map fst ab ++ map fst ac)) -> en r' n = en A n /\ dimension r' n = dimension A n) by (rewrite <- map_app; exact (j_left _ _ _ _ JR')).
    assert (PA : forall n, In n (free_names (t_names A) (map fst ab ++ map fst ac)) -> en r n = en A n /\ dimension r n = dimension A n).
    { intros n Hn. destruct (XR n (in_or_app _ _ _ (or_introl Hn))) as [-> ->]. exact (j_left _ _ _ _ JAB n (ga n Hn)). }
    assert (PB : forall n, In n (free_names (t_names B) (map snd ab ++ map fst bc)) -> en r n = en B n /\ dimension r n = dimension B n).
    { intros n Hn. destruct (XR n (in_or_app _ _ _ (or_intror Hn))) as [-> ->]. exact (j_right _ _ _ _ JAB n (proj1 (gg n Hn))). }
    assert (PB' : forall n, In n (free_names (t_names B) (map snd ab ++ map fst bc)) -> en r' n = en B n /\ dimension r' n = dimension B n).
    { intros n Hn. destruct (XR' n (in_or_app _ _ _ (or_introl Hn))) as [-> ->]. exact (j_left _ _ _ _ JBC n (proj2 (gg n Hn))). }
    assert (PC' : forall n, In n (free_names (t_names C) (map snd bc ++ map snd ac)) -> en r' n = en C n /\ dimension r' n = dimension C n).
    { intros n Hn. destruct (XR' n (in_or_app _ _ _ (or_intror Hn))) as [-> ->]. exact (j_right _ _ _ _ JBC n (gc n Hn)). }
    assert (SS : forall n, In n (t_names r) -> en r' n = en r n /\ dimension r' n = dimension r n).
    { intros n Hn. rewrite N1 in Hn. apply in_app_or in Hn as [Hn|Hn]; [|apply in_app_or in Hn as [Hn|Hn]].
      - destruct (YR' n Hn) as [-> ->], (PA n Hn) as [-> ->]. auto.
      - destruct (PB' n Hn) as [-> ->], (PB n Hn) as [-> ->]. auto.
      - destruct (PC' n Hn) as [-> ->], (YR n Hn) as [-> ->]. auto. }
    assert (RR' : r' = r).
    { apply same_tensor.
      - exact (j_wf _ _ _ _ JR). - exact (j_wf _ _ _ _ JR'). - exact (j_block _ _ _ _ JR). - exact (j_block _ _ _ _ JR'). - congruence.
      - rewrite <- (legs_to_edges r (j_wf _ _ _ _ JR)), <- (legs_to_edges r' (j_wf _ _ _ _ JR')). fold (legs_of r) (legs_of r'). rewrite N2, <- N1. apply map_ext_in. intros n Hn. now apply SS.
      - intros a Ha.
        assert (Ra : forall n, In n (free_names (t_names A) (map fst ab ++ map fst ac)) -> index a n < size (dimension A n)).
        { intros n Hn. rewrite <- (proj2 (PA n Hn)). apply Ha. rewrite N1. apply in_or_app. auto. }
        assert (Rb : forall n, In n (free_names (t_names B) (map snd ab ++ map fst bc)) -> index a n < size (dimension B n)).
        { intros n Hn. rewrite <- (proj2 (PB n Hn)). apply Ha. rewrite N1. apply in_or_app. right. apply in_or_app. auto. }
        assert (Rc : forall n, In n (free_names (t_names C) (map snd bc ++ map snd ac)) -> index a n < size (dimension C n)).
        { intros n Hn. rewrite <- (proj2 (YR n Hn)). apply Ha. rewrite N1. apply in_or_app. right. apply in_or_app. auto. }
        rewrite (j_value _ _ _ _ JR' a) by (intros n Hn; rewrite N2, <- N1 in Hn; rewrite (proj2 (SS n Hn)); auto). rewrite (j_value _ _ _ _ JR a Ha).
        set (dab := map (fun p => size (dimension A (fst p))) ab). set (dac := map (fun p => size (dimension A (fst p))) ac). set (dbc := map (fun p => size (dimension B (fst p))) bc).
        assert (Es : map (fun p => size (dimension A (fst p))) (ab ++ ac) = dab ++ dac) by apply map_app.
        assert (Es' : map (fun p => size (dimension AB (fst p))) (bc ++ ac) = dbc ++ dac).
        { rewrite map_app. f_equal; apply map_ext_in; intros p Hp; [rewrite (DAr (fst p) (FB2 _ (in_map fst _ _ Hp)))|rewrite (DAl (fst p) (FA2 _ (in_map fst _ _ Hp)))]; reflexivity. }
        rewrite Es, Es'. rewrite !(Sums_app).
        set (T := fun i j k : list nat => rmul (value A (combine (map fst ab ++ map fst ac) (i ++ j) ++ a)) (rmul (value B (combine (map snd ab ++ map fst bc) (i ++ k) ++ a)) (value C (combine (map snd bc ++ map snd ac) (k ++ j) ++ a)))).
        assert (ln : forall (f : nat * nat -> nat) (g : nat * nat -> nat) l (i : list nat), Forall2 lt i (map f l) -> length (map g l) = length i).
        { intros f g l i H. apply Forall2_len in H. rewrite map_length in *. congruence. }
        assert (in_pairs : forall (g : nat * nat -> nat) (f : nat * nat -> nat) (l : list (nat * nat)) i n, NoDup (map g l) -> Forall2 lt i (map f l) -> In n (map g l) ->
                  exists p x, In p l /\ g p = n /\ mfind n (combine (map g l) i) = Some x /\ x < f p).
        { clear. intros g f l. induction l as [|p l IH]; intros i n Hd Hi Hn; [destruct Hn|]. cbn [map] in *. destruct i as [|x i]; [inversion Hi|]. inversion Hi as [|? ? ? ? Hx Hi']; subst. inversion Hd as [|? ? Hp Hd']; subst.
          cbn [combine mfind]. destruct (Nat.eq_dec n (g p)) as [->|D].
          - rewrite eqb_refl. exists p, x. repeat split; auto. now left.
          - rewrite (neqb n (g p) D). destruct Hn as [Hn|Hn]; [congruence|]. destruct (IH i n Hd' Hi' Hn) as [q [y [Q1 [Q2 [Q3 Q4]]]]]. exists q, y. repeat split; auto. now right. }
        transitivity (Sums dab (fun i => Sums dac (fun j => Sums dbc (fun k => T i j k)))).
        { apply Sums_ext. intros i Hi. apply Sums_ext. intros j Hj. unfold product. rewrite !map_app.
          rewrite (j_value _ _ _ _ JBC).
          - fold dbc. rewrite (Sums_mul_l EA MD). apply Sums_ext. intros k Hk. unfold T. f_equal. unfold product. f_equal.
            + apply (value_same B _ _ WB BB). intros n Hn. rewrite !index_app, !find_apps by eauto.
              destruct (mfind n (combine (map fst bc) k)) as [x|] eqn:Q.
              * assert (Hb : In n (map fst bc)) by (apply mfind_In, in_combine_l in Q; exact Q).
                rewrite (find_combine_none nat (map snd ab)) by (intro Hc; exact (NB3 n Hc Hb)). reflexivity.
              * destruct (mfind n (combine (map snd ab) i)) as [y|] eqn:Q2; [reflexivity|].
                destruct (in_dec Nat.eq_dec n (map fst bc)) as [Hb|Hb]. { destruct (in_pairs fst (fun p => size (dimension B (fst p))) bc k n NB2 Hk Hb) as [? [? [_ [_ [X _]]]]]. congruence. }
                rewrite (find_combine_none nat (map snd ac)); [reflexivity|]. intro Hc. apply (Xbc n); [apply free_spec; auto|exact (GC2 n Hc)].
            + apply (value_same C _ _ WC BC). intros n Hn. rewrite !index_app, !find_apps by eauto.
              destruct (mfind n (combine (map snd bc) k)) as [x|] eqn:Q; [reflexivity|].
              destruct (in_dec Nat.eq_dec n (map snd bc)) as [Hb|Hb]. { destruct (in_pairs snd (fun p => size (dimension B (fst p))) bc k n NC1 Hk Hb) as [? [? [_ [_ [X _]]]]]. congruence. }
              rewrite (find_combine_none nat (map snd ab)); [reflexivity|]. intro Hc. apply (Xbc n (GB1 n Hc)). apply free_spec. auto.
          - intros n Hn. rewrite index_app, find_apps by eauto. rewrite NBC in Hn. apply in_app_or in Hn as [Hn|Hn].
            + rewrite (DBl n Hn). destruct (in_dec Nat.eq_dec n (map snd ab)) as [Hb|Hb].
              * destruct (in_pairs snd (fun p => size (dimension A (fst p))) ab i n NB1 Hi Hb) as [[p q] [x [X1 [X2 [X3 X4]]]]]. rewrite X3. cbn [fst snd] in *. subst q. now rewrite <- (Dab p n X1).
              * rewrite (find_combine_none nat (map snd ab)) by exact Hb. rewrite (find_combine_none nat (map snd ac)) by (intro Hc; exact (Xbc n Hn (GC2 n Hc))). apply Rb. apply free_spec. apply free_spec in Hn. rewrite in_app_iff. tauto.
            + rewrite (DBr n Hn). rewrite (find_combine_none nat (map snd ab)) by (intro Hc; exact (Xbc n (GB1 n Hc) Hn)). destruct (in_dec Nat.eq_dec n (map snd ac)) as [Hb|Hb].
              * destruct (in_pairs snd (fun p => size (dimension A (fst p))) ac j n NC2 Hj Hb) as [[p q] [x [X1 [X2 [X3 X4]]]]]. rewrite X3. cbn [fst snd] in *. subst q. now rewrite <- (Dac p n X1).
              * rewrite (find_combine_none nat (map snd ac)) by exact Hb. apply Rc. apply free_spec. apply free_spec in Hn. rewrite in_app_iff. tauto. }
        transitivity (Sums dbc (fun k => Sums dac (fun j => Sums dab (fun i => T i j k)))).
        { rewrite (Sums_Sums EA dab dac). transitivity (Sums dac (fun j => Sums dbc (fun k => Sums dab (fun i => T i j k)))); [apply Sums_ext; intros; apply (Sums_Sums EA)|]. apply (Sums_Sums EA). }
        apply Sums_ext. intros k Hk. apply Sums_ext. intros j Hj. symmetry. unfold product. rewrite !map_app.
        rewrite (j_value _ _ _ _ JAB).
        + fold dab. rewrite (Sums_mul_r EA MD). apply Sums_ext. intros i Hi. unfold T. rewrite <- MA. f_equal. unfold product. f_equal.
          * apply (value_same A _ _ WA BA). intros n Hn. rewrite !index_app, !find_apps by eauto.
            destruct (mfind n (combine (map fst ab) i)) as [x|] eqn:Q; [reflexivity|].
            destruct (in_dec Nat.eq_dec n (map fst ab)) as [Hb|Hb]. { destruct (in_pairs fst (fun p => size (dimension A (fst p))) ab i n NA1 Hi Hb) as [? [? [_ [_ [X _]]]]]. congruence. }
            rewrite (find_combine_none nat (map fst bc)); [reflexivity|]. intro Hc. apply (Xab n); [apply free_spec; auto|exact (FB2 n Hc)].
          * apply (value_same B _ _ WB BB). intros n Hn. rewrite !index_app, !find_apps by eauto.
            destruct (mfind n (combine (map snd ab) i)) as [x|] eqn:Q; [reflexivity|].
            destruct (in_dec Nat.eq_dec n (map snd ab)) as [Hb|Hb]. { destruct (in_pairs snd (fun p => size (dimension A (fst p))) ab i n NB1 Hi Hb) as [? [? [_ [_ [X _]]]]]. congruence. }
            destruct (mfind n (combine (map fst bc) k)); [reflexivity|]. rewrite (find_combine_none nat (map fst ac)); [reflexivity|]. intro Hc. apply (Xab n (FA2 n Hc)). apply free_spec. auto.
        + intros n Hn. rewrite index_app, find_apps by eauto. rewrite NAB in Hn. apply in_app_or in Hn as [Hn|Hn].
          * rewrite (DAl n Hn). rewrite (find_combine_none nat (map fst bc)) by (intro Hc; exact (Xab n Hn (FB2 n Hc))). destruct (in_dec Nat.eq_dec n (map fst ac)) as [Hb|Hb].
            -- destruct (in_pairs fst (fun p => size (dimension A (fst p))) ac j n NA2 Hj Hb) as [[p q] [x [X1 [X2 [X3 X4]]]]]. rewrite X3. cbn [fst snd] in *. now subst p.
            -- rewrite (find_combine_none nat (map fst ac)) by exact Hb. apply Ra. apply free_spec. apply free_spec in Hn. rewrite in_app_iff. tauto.
          * rewrite (DAr n Hn). destruct (in_dec Nat.eq_dec n (map fst bc)) as [Hb|Hb].
            -- destruct (in_pairs fst (fun p => size (dimension B (fst p))) bc k n NB2 Hk Hb) as [[p q] [x [X1 [X2 [X3 X4]]]]]. rewrite X3. cbn [fst snd] in *. now subst p.
            -- rewrite (find_combine_none nat (map fst bc)) by exact Hb. rewrite (find_combine_none nat (map fst ac)) by (intro Hc; exact (Xab n (FA2 n Hc) Hn)). apply Rb. apply free_spec. apply free_spec in Hn. rewrite in_app_iff. tauto. }
    exists AB, BC', r. rewrite RR' in CR'. auto.
  Qed.
End Plain.
