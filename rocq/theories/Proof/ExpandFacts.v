(** Tensor::expand, and shrinking what was expanded *)
From Coq Require Import String List Bool Arith Lia Permutation.
From Verif Require Import Base.Outcome Base.SMap Model.Symmetry Model.Edge Model.Core Model.EdgeOperator Model.Elementwise Model.Contract Model.ShrinkExpand
  Spec.Blocks Spec.Fuse Spec.Relabel Spec.Contract Proof.SymmetryFacts Proof.CoreFacts Proof.LoopFacts Proof.ElemFacts Proof.ConstructFacts
  Proof.NamedOperator Proof.LegFacts Proof.ContractNames Proof.SumFacts Proof.CopyLoopFacts Proof.ContractSym Proof.ContractPlain Proof.RegroupFacts Proof.OneHotFacts Proof.HotContract Proof.ShrinkFacts.
Import ListNotations.

(** a configured edge of expand: (name, (arrow, (charge, (index, dimension)))) *)
Notation x_charge x := (fst (snd (snd x))).
Notation x_index x := (fst (snd (snd (snd x)))).
Notation x_dim x := (snd (snd (snd (snd x)))).

Section Expand.
  Context {S R : Type} {SS : Sym S} {SL : SymLaws S} {RR : Scalar R}.
  Notation entry := (S * nat)%type.
  Notation config := (list (nat * (bool * (S * (nat * nat))))).
  Variable E : @env R.
  Variable I : internal.
  Hypothesis Nf : @is_fermi S SS = false.
  Hypothesis EA : exact_arithmetic R.

  Section One.
    Variables (t : tensor S R) (cfg : config) (old : option nat).
    Hypotheses (Wt : wf_tensor t) (Nc : NoDup (map fst cfg)) (Dc : forall n, In n (map fst cfg) -> ~ In n (t_names t))
      (Hi : forall x, In x cfg -> x_index x < x_dim x)
      (Ho : forall o, old = Some o -> In o (t_names t) /\ emap (edge_named (legs_of t) o) = [(szero, 1)]).
    Definition look (n : nat) : bool * (S * (nat * nat)) := match mfind n cfg with Some x => x | None => (false, (szero, (0, 1))) end.
    Local Notation c := (fun n => fst (snd (look n))).
    Local Notation d := (fun n => snd (snd (snd (look n)))).
    Local Notation g := (fun n => fst (snd (snd (look n)))).
    Local Notation eg := (fun n => mkEdge false [(c n, d n)]).
    Local Notation keys := (map fst cfg).
    Local Notation ns := (keys ++ olist old).

    Lemma look_in : forall x, In x cfg -> look (fst x) = snd x.
    Proof. intros [n x] Hin. unfold look. cbn [fst snd]. now rewrite (In_mfind_nodup cfg n x Nc Hin). Qed.
    Lemma look_old : forall o, old = Some o -> look o = (false, (szero, (0, 1))).
    Proof. intros o H. unfold look. destruct (Ho o H) as [Hin _]. rewrite (proj2 (mfind_None cfg o)); [reflexivity|]. intro Hx. exact (Dc o Hx Hin). Qed.
    Lemma map_keys : forall A (f : nat -> A) (f' : nat * (bool * (S * (nat * nat))) -> A), (forall x, In x cfg -> f (fst x) = f' x) -> map f keys = map f' cfg.
    Proof. intros A f f' H. rewrite map_map. now apply map_ext_in. Qed.
    Lemma in_ns : forall n, In n ns <-> In n keys \/ old = Some n.
    Proof. intro n. rewrite in_app_iff. destruct old as [m|]; cbn [olist In]; intuition congruence. Qed.
    Lemma ns_nodup : NoDup ns.
    Proof.
      apply NoDup_app_intro; [exact Nc|destruct old; repeat constructor; auto|]. intros n Hin Hx. destruct old as [m|] eqn:En; [|destruct Hx].
      destruct Hx as [<-|[]]. apply (Dc m Hin). now apply Ho.
    Qed.
    Lemma expand_edges : map expand_edge cfg = map eg keys.
    Proof.
      symmetry. apply map_keys. intros [n [a [s [i k]]]] Hin. rewrite (look_in _ Hin). cbn [fst snd]. unfold expand_edge. rewrite Nf. f_equal. f_equal. f_equal.
      destruct (@is_nosym S SS) eqn:Ns; [|reflexivity]. now apply nosym_unit.
    Qed.
    Lemma fold_fst : forall A B C (f : C -> A -> C) (l : list (A * B)) o, fold_left (fun o x => f o (fst x)) l o = fold_left f (map fst l) o.
    Proof. intros A B C f l. induction l as [|x l IH]; intro o; [reflexivity|]. cbn [fold_left map]. apply IH. Qed.
    Lemma expand_off : expand_offset cfg = row_major (map d keys) (map g keys).
    Proof.
      unfold row_major. rewrite <- (offset_row_major d g keys 0). unfold expand_offset.
      assert (H : forall l o, incl l cfg -> fold_left (fun o x => let '(_, (_, (_, (i, d0)))) := x in offset_step o d0 i) l o = fold_left (fun o x => offset_step o (d (fst x)) (g (fst x))) l o).
      { induction l as [|[n [a [s [i k]]]] l IH]; intros o Hl; [reflexivity|]. cbn [fold_left]. cbn beta. rewrite (look_in _ (Hl _ (or_introl eq_refl))). cbn [fst snd].
        apply IH. intros x Hx. apply Hl. now right. }
      rewrite H by (intros x Hx; exact Hx). apply (fold_fst _ _ _ (fun o n => offset_step o (d n) (g n))).
    Qed.
    Lemma expand_reduces :
      expand E I t cfg old = bind (one_hot E ns (map eg ns) (row_major (map d ns) (map g ns))) (fun h => contract_all_edge E I h t).
    Proof.
      unfold expand. case_eq old; [intros o En|intro En].
      - destruct (Ho o En) as [Hin Hm]. destruct (leg_of_name t o Wt Hin) as [e He]. pose proof (leg_named t o e Wt He) as Hle. fold (legs_of t) in He, Hle. rewrite Hle in Hm.
        change (combine (t_names t) (t_edges t)) with (legs_of t). unfold edge_named in Hle.
        rewrite (In_mfind_nodup (legs_of t) o e) by (exact He || (unfold legs_of; rewrite combine_map_fst by apply Wt; apply Wt)).
        cbn [at_or_throw bind]. rewrite Hm, eqb_refl. cbn [negb]. rewrite andb_false_r. cbn [bind fst snd olist]. rewrite Nf, expand_edges, expand_off.
        rewrite !map_app. cbn [map]. rewrite (look_old o En). cbn [fst snd]. rewrite sneg_0.
        replace (if is_nosym then szero else szero) with (@szero S SS) by (now destruct (@is_nosym S SS)).
        do 2 f_equal. unfold row_major. rewrite combine_app by (now rewrite !map_length). rewrite fold_left_app. cbn [combine fold_left fst snd]. lia.
      - rewrite eqb_refl. cbn [negb]. rewrite andb_false_r. cbn [bind fst snd olist]. rewrite expand_edges, expand_off, !app_nil_r. reflexivity.
    Qed.
    Lemma hot_lt : forall n, In n ns -> g n < d n.
    Proof.
      intros n Hin. apply in_ns in Hin as [Hin|Hin].
      - apply in_map_iff in Hin as [x [<- Hin]]. cbn beta. rewrite (look_in x Hin). now apply Hi.
      - rewrite (look_old n Hin). cbn [fst snd]. auto.
    Qed.
    Lemma hot_sum : ssum (map (fun x => x_charge x) cfg) = szero -> ssum (map c ns) = szero.
    Proof.
      intro Hz. rewrite map_app, ssum_app. rewrite (map_keys _ c (fun x => x_charge x)) by (intros x Hin; now rewrite (look_in x Hin)). rewrite Hz, sadd_0_l.
      case_eq old; [intros o En|reflexivity]. cbn [olist map]. rewrite (look_old o) by exact En. cbn [fst snd]. apply ssum_single.
    Qed.
    Lemma common_is : filter (fun n => member n (t_names t)) ns = olist old.
    Proof.
      rewrite filter_app. rewrite (filter_none _ _ keys).
      - cbn [app]. case_eq old; [intros m En|reflexivity]. cbn [olist filter]. replace (member m (t_names t)) with true; [reflexivity|]. symmetry. apply mem_name_In. now apply Ho.
      - intros n Hin. apply mem_name_false. now apply Dc.
    Qed.
    Lemma rest_is : free_names ns (olist old) = keys.
    Proof.
      unfold free_names. rewrite filter_app. rewrite (filter_all _ _ keys), (filter_none _ _ (olist old)); [apply app_nil_r| |].
      - intros n Hin. apply negb_false_iff. now apply mem_name_In.
      - intros n Hin. apply negb_true_iff. apply mem_name_false. intro Hx. destruct old as [m|] eqn:En; [|destruct Hx]. destruct Hx as [<-|[]]. apply (Dc m Hin). now apply Ho.
    Qed.
    Lemma common_edge : forall n, In n ns -> In n (t_names t) -> emap (edge_named (legs_of t) n) = [(sneg (c n), d n)].
    Proof.
      intros n H1 H2. apply in_ns in H1 as [H1|H1]; [exfalso; exact (Dc n H1 H2)|]. rewrite (look_old n H1). cbn [fst snd]. rewrite sneg_0. now apply Ho.
    Qed.
    Lemma full_is : forall pos n, mfind n (combine (olist old) (map (fun n => (sneg (c n), g n)) (olist old)) ++ pos) = mfind n (map (fun o => (o, (szero, 0))) (olist old) ++ pos).
    Proof. intros pos n. case_eq old; [intros o En|reflexivity]. cbn [olist map combine]. rewrite (look_old o) by exact En. cbn [fst snd]. now rewrite sneg_0. Qed.
    Lemma hot_is : forall pos, forallb (fun n => snd (coord pos n) =? g n) keys = forallb (fun x => snd (coord pos (fst x)) =? x_index x) cfg.
    Proof.
      intro pos. assert (H : forall l, incl l cfg -> forallb (fun n => snd (coord pos n) =? g n) (map fst l) = forallb (fun x => snd (coord pos (fst x)) =? x_index x) l).
      { induction l as [|x l IH]; intro Hl; [reflexivity|]. cbn [map forallb]. rewrite (look_in x (Hl x (or_introl eq_refl))). f_equal. apply IH. intros y Hy. apply Hl. now right. }
      apply H. intros x Hx. exact Hx.
    Qed.
  End One.

  Lemma plain_single : @is_nosym S SS = true -> forall (t : tensor S R) n, wf_tensor t -> t_blocks t <> [] -> In n (t_names t) ->
    exists k, emap (edge_named (legs_of t) n) = [(szero, k)].
  Proof.
    intros Ns t n Wt Bt Hin. pose proof (plain_maps Ns t Wt Bt) as Hm. rewrite <- (legs_to_edges t Wt) in Hm. unfold maps_of in Hm. rewrite !map_map in Hm.
    pose proof (ext_in_map Hm n Hin) as He. cbn beta in He. eauto.
  Qed.
  Lemma expand_plain : @is_nosym S SS = true -> NoDup [i_contract_0 I; i_contract_1 I; i_contract_2 I] ->
    forall (t : tensor S R) (cfg : config) old, wf_tensor t -> t_blocks t <> [] -> NoDup (map fst cfg) -> (forall n, In n (map fst cfg) -> ~ In n (t_names t)) ->
    (forall x, In x cfg -> x_index x < x_dim x) ->
    (forall o, old = Some o -> In o (t_names t) /\ In (szero, 1) (emap (edge_named (legs_of t) o))) ->
    exists r, expand E I t cfg old = Ok r /\ wf_tensor r /\ t_blocks r <> [] /\ t_names r = map fst cfg ++ free_names (t_names t) (olist old) /\
      t_edges r = map (fun x => mkEdge false [(szero, x_dim x)]) cfg ++ map (edge_named (legs_of t)) (free_names (t_names t) (olist old)) /\
      forall pos pt, assigns pos (t_names r) pt -> valid_pt (t_core r) pt ->
        const_at r pos = if forallb (fun x => snd (coord pos (fst x)) =? x_index x) cfg then const_at t (map (fun o => (o, (szero, 0))) (olist old) ++ pos) else Ok rzero.
  Proof.
    intros Ns NI t cfg old Wt Bt Nc Dc Hi Ho'.
    assert (Ho : forall o, old = Some o -> In o (t_names t) /\ emap (edge_named (legs_of t) o) = [(szero, 1)]).
    { intros o H. destruct (Ho' o H) as [Hin Hk]. split; [exact Hin|]. destruct (plain_single Ns t o Wt Bt Hin) as [k Hm]. rewrite Hm in *. destruct Hk as [Hk|[]]. now rewrite Hk. }
    rewrite (expand_reduces t cfg old Wt Nc Dc Ho).
    pose proof (hot_lt t cfg old Nc Dc Hi Ho) as HL. pose proof (hot_sum t cfg old Nc Dc Ho (nosym_unit Ns _)) as HZ.
    destruct (one_hot_ok E _ _ _ (fun _ => false) _ (ns_nodup t cfg old Nc Dc Ho) HZ HL) as [h [H1 [H2 [H3 [H4 [H5 H6]]]]]].
    rewrite H1. cbn [bind].
    destruct (hot_plain E I _ _ _ (fun _ => false) EA h t _ H2 H3 H4 H5 HZ HL Wt H6 (common_edge t cfg old Dc Ho) Ns Nf NI Bt) as [r [R1 [R2 [R3 [R4 [R5 R6]]]]]].
    rewrite (common_is t cfg old Dc Ho), (rest_is t cfg old Dc Ho) in R4, R5, R6.
    exists r. do 4 (split; [assumption|]). split.
    - rewrite R5. f_equal. apply map_keys. intros x Hin. rewrite (look_in cfg Nc x Hin). now rewrite (nosym_unit Ns (fst _)).
    - intros pos pt Ha Hv. rewrite (R6 pos pt Ha Hv). rewrite (hot_is cfg Nc). rewrite (const_at_ext t _ (map (fun o => (o, (szero, 0))) (olist old) ++ pos)); [reflexivity|].
      intros n _. now apply (full_is t).
  Qed.
  Lemma expand_sym : @is_nosym S SS = false -> i_contract_1 I <> i_contract_2 I ->
    forall (t : tensor S R) (cfg : config) old, wf_tensor t -> NoDup (map fst cfg) -> (forall n, In n (map fst cfg) -> ~ In n (t_names t)) ->
    (forall x, In x cfg -> x_index x < x_dim x) ->
    (forall o, old = Some o -> In o (t_names t) /\ emap (edge_named (legs_of t) o) = [(szero, 1)]) ->
    ssum (map (fun x => x_charge x) cfg) = szero ->
    exists r, expand E I t cfg old = Ok r /\ wf_tensor r /\ t_names r = map fst cfg ++ free_names (t_names t) (olist old) /\
      (forall pt, valid_pt (t_core r) pt <-> in_range (map (fun x => [(x_charge x, x_dim x)]) cfg ++ map (fun n => emap (edge_named (legs_of t) n)) (free_names (t_names t) (olist old))) pt /\ ssum (map fst pt) = szero) /\
      forall pos pt, assigns pos (t_names r) pt -> valid_pt (t_core r) pt ->
        const_at r pos = if forallb (fun x => snd (coord pos (fst x)) =? x_index x) cfg then const_at t (map (fun o => (o, (szero, 0))) (olist old) ++ pos) else Ok rzero.
  Proof.
    intros Ns NI t cfg old Wt Nc Dc Hi Ho Hz.
    rewrite (expand_reduces t cfg old Wt Nc Dc Ho).
    pose proof (hot_lt t cfg old Nc Dc Hi Ho) as HL. pose proof (hot_sum t cfg old Nc Dc Ho Hz) as HZ.
    destruct (one_hot_ok E _ _ _ (fun _ => false) _ (ns_nodup t cfg old Nc Dc Ho) HZ HL) as [h [H1 [H2 [H3 [H4 [H5 H6]]]]]].
    rewrite H1. cbn [bind].
    destruct (hot_sym E I _ _ _ (fun _ => false) EA h t _ H2 H3 H4 H5 HZ HL Wt H6 (common_edge t cfg old Dc Ho) Ns Nf NI) as [r [R1 [R2 [R4 [R5 R6]]]]].
    { rewrite (common_is t cfg old Dc Ho). left. destruct old; cbn [olist length]; lia. }
    rewrite (common_is t cfg old Dc Ho), (rest_is t cfg old Dc Ho) in R4, R5, R6.
    rewrite (map_keys cfg _ _ (fun x => [(x_charge x, x_dim x)])) in R5 by (intros x Hin; now rewrite (look_in cfg Nc x Hin)).
    exists r. do 4 (split; [assumption|]).
    intros pos pt Ha Hv. rewrite (R6 pos pt Ha Hv). rewrite (hot_is cfg Nc). rewrite (const_at_ext t _ (map (fun o => (o, (szero, 0))) (olist old) ++ pos)); [reflexivity|].
    intros n _. now apply (full_is t).
  Qed.
  (** charges that do not add up to zero *)
  Lemma expand_no_block : forall (t : tensor S R) (cfg : config) old, wf_tensor t -> NoDup (map fst cfg) -> (forall n, In n (map fst cfg) -> ~ In n (t_names t)) ->
    (forall o, old = Some o -> In o (t_names t) /\ emap (edge_named (legs_of t) o) = [(szero, 1)]) ->
    ssum (map (fun x => x_charge x) cfg) <> szero -> expand E I t cfg old = UB.
  Proof.
    intros t cfg old Wt Nc Dc Ho Hz. rewrite (expand_reduces t cfg old Wt Nc Dc Ho).
    rewrite (one_hot_no_block E _ _ (fun _ => false)); [reflexivity|exact (ns_nodup t cfg old Nc Dc Ho)|].
    intro H. apply Hz. rewrite map_app, ssum_app in H. rewrite (map_keys cfg _ _ (fun x => x_charge x)) in H by (intros x Hin; now rewrite (look_in cfg Nc x Hin)).
    rewrite <- H. destruct old as [o|] eqn:En; cbn [olist map].
    - rewrite (look_old t cfg (Some o) Dc Ho o eq_refl). cbn [fst snd]. rewrite ssum_single. now rewrite sadd_comm, sadd_0_l.
    - change (ssum (@nil S)) with (@szero S SS). now rewrite sadd_comm, sadd_0_l.
  Qed.

  Lemma round_trip : @is_nosym S SS = true -> NoDup [i_contract_0 I; i_contract_1 I; i_contract_2 I] ->
    forall (t : tensor S R) (cfg : config) old arrow, wf_tensor t -> t_blocks t <> [] -> NoDup (map fst cfg) -> (forall n, In n (map fst cfg) -> ~ In n (t_names t)) ->
    (forall x, In x cfg -> x_index x < x_dim x) ->
    (forall o, old = Some o -> In o (t_names t) /\ In (szero, 1) (emap (edge_named (legs_of t) o))) ->
    exists r, bind (expand E I t cfg old) (fun e => shrink E I e (map (fun x => (fst x, (x_charge x, x_index x))) cfg) old arrow) = Ok r /\ wf_tensor r /\
      t_names r = olist old ++ free_names (t_names t) (olist old) /\
      t_edges r = map (fun _ => mkEdge false [(szero, 1)]) (olist old) ++ map (edge_named (legs_of t)) (free_names (t_names t) (olist old)) /\
      forall pos pt, assigns pos (t_names r) pt -> valid_pt (t_core r) pt -> const_at r pos = const_at t pos.
  Proof.
    intros Ns NI t cfg old arrow Wt Bt Nc Dc Hi Ho.
    destruct (expand_plain Ns NI t cfg old Wt Bt Nc Dc Hi Ho) as [e [H1 [H2 [H3 [H4 [H5 H6]]]]]]. rewrite H1. cbn [bind].
    set (sel := map (fun x : nat * (bool * (S * (nat * nat))) => (fst x, (x_charge x, x_index x))) cfg).
    assert (Hk : map fst sel = map fst cfg) by (unfold sel; rewrite map_map; reflexivity).
    assert (Hsel : forall x, In x cfg -> mfind (fst x) sel = Some (x_charge x, x_index x)).
    { intros x Hin. apply In_mfind_nodup; [now rewrite Hk|]. unfold sel. apply (in_map (fun x => (fst x, (x_charge x, x_index x))) _ _ Hin). }
    assert (Hold : forall n, old = Some n -> ~ In n (t_names e)).
    { intros n Hn Hx. rewrite H4 in Hx. apply in_app_or in Hx as [Hx|Hx].
      - exact (Dc n Hx (proj1 (Ho n Hn))).
      - apply in_free in Hx as [_ Hx]. apply Hx. rewrite Hn. now left. }
    assert (Fk : free_names (t_names e) (map fst sel) = free_names (t_names t) (olist old)).
    { rewrite Hk, H4. unfold free_names at 1. rewrite filter_app. rewrite (filter_none _ _ (map fst cfg)) by (intros n Hin; apply negb_false_iff; now apply mem_name_In).
      cbn [app]. apply filter_all. intros n Hin. apply in_free in Hin as [Hin _]. apply negb_true_iff. apply mem_name_false. intro Hx. exact (Dc n Hx Hin). }
    assert (He : forall n, In n (t_names e) -> exists f, edge_named (legs_of e) n = f /\ In (n, f) (legs_of e)).
    { intros n Hin. destruct (leg_of_name e n H2 Hin) as [f Hf]. exists f. split; [now apply (leg_named e)|exact Hf]. }
    assert (HC : legs_of e = combine (map fst cfg) (map (fun x => mkEdge false [(szero, x_dim x)]) cfg) ++ combine (free_names (t_names t) (olist old)) (map (edge_named (legs_of t)) (free_names (t_names t) (olist old)))).
    { unfold legs_of at 1. rewrite H4, H5. apply combine_app. now rewrite !map_length. }
    assert (Hcm : forall A B C (f : A -> B) (g : A -> C) l, combine (map f l) (map g l) = map (fun x => (f x, g x)) l).
    { intros A B C f g l. induction l as [|a l IH]; [reflexivity|]. cbn [map combine]. now rewrite IH. }
    destruct (shrink_plain E I Nf EA Ns NI e sel old arrow H2 H3 Hold) as [r [R1 [R2 [R3 [R4 [R5 R6]]]]]].
    - intros n s i Hin _. unfold sel in Hin. apply in_map_iff in Hin as [x [Hx Hin]]. injection Hx as <- <- <-.
      assert (Hlx : In (fst x, mkEdge false [(szero, x_dim x)]) (legs_of e)).
      { rewrite HC. apply in_or_app. left. rewrite Hcm. now apply (in_map (fun x => (fst x, mkEdge false [(szero, x_dim x)]))). }
      pose proof (leg_named e _ _ H2 Hlx) as Hle. fold (legs_of e) in Hle. rewrite Hle. cbn [emap]. exists (x_dim x). split; [|now apply Hi]. left. now rewrite (nosym_unit Ns (x_charge x)).
    - rewrite Fk in R4, R5.
      assert (HE : map (edge_named (legs_of e)) (free_names (t_names t) (olist old)) = map (edge_named (legs_of t)) (free_names (t_names t) (olist old))).
      { apply map_ext_in. intros n Hin. apply (leg_named e); [exact H2|]. change (combine (t_names e) (t_edges e)) with (legs_of e). rewrite HC. apply in_or_app. right.
        rewrite <- (map_id (free_names (t_names t) (olist old))) at 1. rewrite Hcm. apply (in_map (fun n => (n, edge_named (legs_of t) n)) _ _ Hin). }
      rewrite HE in R5. exists r. do 3 (split; [assumption|]). split.
      + exact R5.
      + intros pos pt Ha Hv. rewrite (R6 pos pt Ha Hv).
        assert (Hfound : forall n, In n (t_names r) -> mfind n pos = Some (coord pos n)).
        { intros n Hin. unfold assigns in Ha. unfold coord. destruct (mfind n pos) eqn:En; [reflexivity|]. exfalso.
          assert (Hx : In None (map (fun n => mfind n pos) (t_names r))) by (rewrite <- En; now apply (in_map (fun n => mfind n pos))).
          rewrite Ha in Hx. apply in_map_iff in Hx as [y [Hy _]]. discriminate Hy. }
        pose proof (assigns_coord _ _ _ Ha) as Hpt. destruct Hv as [Hv _]. change (c_edges (t_core r)) with (t_edges r) in Hv. rewrite Hpt, R4, R5 in Hv. unfold maps_of in Hv. rewrite !map_app, !map_map in Hv.
        apply in_range_app in Hv as [Hv1 Hv2]; [|now rewrite !map_length].
        assert (Hcoord : forall n, In n (free_names (t_names t) (olist old)) -> mfind n (sel ++ pos) = Some (coord pos n)).
        { intros n Hin. rewrite mfind_app. rewrite (proj2 (mfind_None sel n)).
          - apply Hfound. rewrite R4. apply in_or_app. now right.
          - rewrite Hk. intro Hx. apply in_free in Hin as [Hin _]. exact (Dc n Hx Hin). }
        rewrite (H6 (sel ++ pos) (map (fun x => (x_charge x, x_index x)) cfg ++ map (coord pos) (free_names (t_names t) (olist old)))).
        * replace (forallb _ cfg) with true.
          { apply const_at_ext. intros n Hin. rewrite mfind_app. destruct (in_dec Nat.eq_dec n (olist old)) as [Hx|Hx].
            - assert (Hn : old = Some n) by (destruct old as [m|]; [destruct Hx as [->|[]]; reflexivity|destruct Hx]). rewrite Hn. cbn [olist map mfind]. rewrite eqb_refl.
              rewrite Hfound by (rewrite R4; apply in_or_app; now left). destruct (proj1 (in_range_named _ _ _) Hv1 n Hx) as [k [[Hq|[]] Hlt]]. injection Hq as Hq1 Hq2. subst k.
              rewrite (surjective_pairing (coord pos n)). rewrite <- Hq1. f_equal. f_equal. lia.
            - rewrite (proj2 (mfind_None (map (fun o => (o, (szero, 0))) (olist old)) n)) by (rewrite map_map; cbn [fst]; now rewrite map_id).
              rewrite Hcoord by (now apply in_free). symmetry. apply Hfound. rewrite R4. apply in_or_app. right. now apply in_free. }
          symmetry. apply forallb_forall. intros x Hin. unfold coord. rewrite mfind_app, (Hsel x Hin). apply Nat.eqb_refl.
        * unfold assigns. rewrite H4, !map_app, !map_map. f_equal.
          { apply map_ext_in. intros x Hin. rewrite mfind_app, (Hsel x Hin). reflexivity. }
          apply map_ext_in. exact Hcoord.
        * split; [|apply (nosym_unit Ns)]. change (c_edges (t_core e)) with (t_edges e). rewrite H5. unfold maps_of. rewrite map_app, !map_map. apply in_range_app; [now rewrite !map_length|]. split.
          { clear - Hi Ns SL. induction cfg as [|x l IH]; cbn [map]; [constructor|]. apply (in_range_cons _ _ _ _ (x_dim x)).
            - cbn [emap]. left. rewrite (nosym_unit Ns (x_charge x)). reflexivity.
            - apply Hi. now left.
            - apply IH. intros y Hy. apply Hi. now right. }
          exact Hv2.
  Qed.
End Expand.
