(** Tensor::shrink *)
From Coq Require Import String List Bool Arith Lia Permutation.
From Verif Require Import Base.Outcome Base.SMap Model.Symmetry Model.Edge Model.Core Model.EdgeOperator Model.Elementwise Model.Contract Model.ShrinkExpand
  Spec.Blocks Spec.Fuse Spec.Relabel Spec.Contract Proof.SymmetryFacts Proof.CoreFacts Proof.LoopFacts Proof.ElemFacts Proof.ConstructFacts
  Proof.NamedOperator Proof.LegFacts Proof.ContractNames Proof.SumFacts Proof.CopyLoopFacts Proof.ContractSym Proof.ContractPlain Proof.RegroupFacts Proof.OneHotFacts Proof.HotContract.
Import ListNotations.

Definition olist {A : Type} (o : option A) : list A := match o with Some a => [a] | None => [] end.

Lemma filter_all : forall A (f : A -> bool) l, (forall x, In x l -> f x = true) -> filter f l = l.
Proof. intros A f l H. induction l as [|a l IH]; [reflexivity|]. cbn [filter]. rewrite (H a (or_introl eq_refl)), IH; [reflexivity|]. intros; apply H; now right. Qed.
Lemma filter_none : forall A (f : A -> bool) l, (forall x, In x l -> f x = false) -> filter f l = [].
Proof. intros A f l H. induction l as [|a l IH]; [reflexivity|]. cbn [filter]. rewrite (H a (or_introl eq_refl)), IH; [reflexivity|]. intros; apply H; now right. Qed.
Lemma combine_app : forall A B (a1 a2 : list A) (b1 b2 : list B), length a1 = length b1 -> combine (a1 ++ a2) (b1 ++ b2) = combine a1 b1 ++ combine a2 b2.
Proof. intros A B a1 a2. induction a1 as [|x a1 IH]; intros [|y b1] b2 H; try discriminate H; [reflexivity|]. cbn [app combine]. f_equal. apply IH. now injection H. Qed.

Section Shrink.
  Context {S R : Type} {SS : Sym S} {SL : SymLaws S} {RR : Scalar R}.
  Notation entry := (S * nat)%type.
  Variable E : @env R.
  Variable I : internal.
  Hypothesis Nf : @is_fermi S SS = false.
  Hypothesis EA : exact_arithmetic R.

  Lemma offset_row_major : forall (d g : nat -> nat) l o, fold_left (fun o n => offset_step o (d n) (g n)) l o = fold_left (fun acc di => acc * fst di + snd di) (combine (map d l) (map g l)) o.
  Proof. intros d g l. induction l as [|n l IH]; intro o; [reflexivity|]. cbn [fold_left map combine fst snd]. apply IH. Qed.

  Section One.
    Variables (t : tensor S R) (cfg : list (nat * entry)) (new : option nat) (arrow : bool).
    Hypotheses (Wt : wf_tensor t) (Nn : forall n, new = Some n -> ~ In n (t_names t)).
    Hypothesis Hcfg : forall n s i, In (n, (s, i)) cfg -> In n (t_names t) -> exists k, emap (edge_named (legs_of t) n) = [(s, k)] /\ i < k.
    Local Notation ch := (fun n => fst (coord cfg n)).
    Local Notation keep := (fun n => member n (map fst cfg)).
    Definition dm (n : nat) : nat := match emap (edge_named (legs_of t) n) with (_, k) :: _ => k | [] => 0 end.
    Local Notation K := (filter keep (t_names t)).
    Local Notation total := (ssum (map ch K)).
    Definition is_new (n : nat) : bool := match new with Some m => n =? m | None => false end.
    Definition hc (n : nat) : S := if is_new n then total else sneg (ch n).
    Definition hd (n : nat) : nat := if is_new n then 1 else dm n.
    Definition hg (n : nat) : nat := if is_new n then 0 else snd (coord cfg n).
    Local Notation eg := (fun n => mkEdge false [(hc n, hd n)]).

    Lemma ch_nosym : forall n, (if is_nosym then szero else ch n) = ch n.
    Proof. intro n. destruct (@is_nosym S SS) eqn:Ns; [|reflexivity]. symmetry. now apply nosym_unit. Qed.
    Lemma keep_cfg : forall n, In n (map fst cfg) -> In (n, coord cfg n) cfg.
    Proof. intros n Hin. apply mfind_Some_In in Hin as [x Hx]. unfold coord. rewrite Hx. now apply mfind_In. Qed.
    Lemma keep_edge : forall n, In n (t_names t) -> In n (map fst cfg) -> emap (edge_named (legs_of t) n) = [(ch n, dm n)] /\ snd (coord cfg n) < dm n.
    Proof.
      intros n Hin Hk. pose proof (keep_cfg n Hk) as Hx. rewrite (surjective_pairing (coord cfg n)) in Hx. destruct (Hcfg n _ _ Hx Hin) as [k [He Hlt]]. unfold dm. rewrite He. auto.
    Qed.
    Lemma shrink_walk : forall l done, (forall n e, In (n, e) l -> In n (t_names t) /\ edge_named (legs_of t) n = e) ->
      foldM (shrink_step cfg) l ((ssum (map ch done), fold_left (fun o n => offset_step o (dm n) (snd (coord cfg n))) done 0), map (fun n => (n, mkEdge false [(sneg (ch n), dm n)])) done) =
      let all := done ++ filter keep (map fst l) in
      Ok ((ssum (map ch all), fold_left (fun o n => offset_step o (dm n) (snd (coord cfg n))) all 0), map (fun n => (n, mkEdge false [(sneg (ch n), dm n)])) all).
    Proof.
      induction l as [|[n e] l IH]; intros done Hl.
      - cbn [foldM map filter]. cbv zeta. rewrite app_nil_r. reflexivity.
      - cbn [foldM]. destruct (Hl n e (or_introl eq_refl)) as [Hn He]. unfold shrink_step at 1. cbn [fst snd]. cbn [map filter fst]. destruct (member n (map fst cfg)) eqn:Em.
        + apply mem_name_In in Em as Hk. destruct (keep_edge n Hn Hk) as [Hm _]. rewrite He in Hm. apply mfind_Some_In in Hk as Hx. destruct Hx as [[s i] Hx]. rewrite Hx.
          assert (Hco : coord cfg n = (s, i)) by (unfold coord; now rewrite Hx).
          pose proof (ch_nosym n) as Hs. cbn beta in Hs, Hm. rewrite Hco in Hs, Hm. cbn [fst] in Hs, Hm. rewrite Hs, Hm. cbn [mfind]. rewrite eqb_refl. cbn [at_or_throw bind].
          rewrite Nf. specialize (IH (done ++ [n])). rewrite !map_app, fold_left_app, ssum_app in IH. cbn [map fold_left] in IH. rewrite ssum_single, Hco in IH. cbn [fst snd] in IH.
          assert (Ht : (if is_nosym then ssum (map ch done) else sadd (ssum (map ch done)) s) = sadd (ssum (map ch done)) s).
          { destruct (@is_nosym S SS) eqn:Ns; [|reflexivity]. rewrite (nosym_unit Ns (ssum _)). symmetry. apply (nosym_unit Ns). }
          rewrite Ht, IH by (intros m f Hin; apply Hl; now right). cbv zeta. rewrite <- app_assoc. reflexivity.
        + replace (mfind n cfg) with (@None entry) by (symmetry; apply mfind_None; now apply mem_name_false). cbn [bind]. apply IH. intros m f Hin. apply Hl. now right.
    Qed.
    Lemma not_new : forall n, In n (t_names t) -> is_new n = false.
    Proof. intros n Hin. unfold is_new. destruct new as [m|]; [|reflexivity]. apply Nat.eqb_neq. intros ->. exact (Nn m eq_refl Hin). Qed.
    Lemma in_K : forall n, In n K <-> In n (t_names t) /\ In n (map fst cfg).
    Proof. intro n. rewrite filter_In. now rewrite (mem_name_In n (map fst cfg)). Qed.
    Lemma map_K : forall A (f g : nat -> A), (forall n, In n K -> is_new n = false -> f n = g n) -> map f K = map g K.
    Proof. intros A f g H. apply map_ext_in. intros n Hin. apply H; [exact Hin|]. apply not_new. now apply in_K. Qed.
    Local Notation ns := (K ++ olist new).

    Lemma names_nodup : NoDup ns.
    Proof.
      apply NoDup_app_intro; [apply NoDup_filter, Wt|destruct new; repeat constructor; auto|]. intros n Hin Hx. apply in_K in Hin as [Hin _]. destruct new as [m|]; [|destruct Hx].
      destruct Hx as [<-|[]]. exact (Nn m eq_refl Hin).
    Qed.
    Lemma names_in : forall n, In n ns <-> In n K \/ new = Some n.
    Proof. intro n. rewrite in_app_iff. destruct new as [m|]; cbn [olist In]; intuition congruence. Qed.
    Lemma new_is : forall m, new = Some m -> is_new m = true.
    Proof. intros m H. unfold is_new. rewrite H. apply Nat.eqb_refl. Qed.

    Lemma shrink_reduces : (new = None -> total = szero) ->
      shrink E I t cfg new arrow = bind (one_hot E ns (map eg ns) (row_major (map hd ns) (map hg ns))) (fun h => contract_all_edge E I h t).
    Proof.
      intro Hz. unfold shrink. pose proof (shrink_walk (legs_of t) []) as Hw. cbn [map fold_left app] in Hw. change (ssum (@nil S)) with (@szero S SS) in Hw. change (combine (t_names t) (t_edges t)) with (legs_of t).
      rewrite Hw.
      2:{ intros n e Hin. split; [|apply (leg_named t); auto]. apply in_combine_l in Hin. exact Hin. }
      cbv zeta. cbn [bind]. assert (HLN : map fst (legs_of t) = t_names t) by (unfold legs_of; apply combine_map_fst, Wt). rewrite HLN.
      set (legs := map (fun n => (n, mkEdge false [(sneg (ch n), dm n)])) K).
      assert (HL1 : map fst legs = K) by (unfold legs; rewrite map_map; cbn [fst]; apply map_id).
      assert (HL2 : map snd legs = map eg K).
      { unfold legs. rewrite map_map. cbn [snd]. apply map_K. intros n _ H. unfold hc, hd. now rewrite H. }
      assert (HO : fold_left (fun o n => offset_step o (dm n) (snd (coord cfg n))) K 0 = row_major (map hd ns) (map hg ns)).
      { rewrite offset_row_major. unfold row_major. rewrite !map_app. 
        replace (map hd K) with (map dm K) by (apply map_K; intros n _ H; unfold hd; now rewrite H).
        replace (map hg K) with (map (fun n => snd (coord cfg n)) K) by (apply map_K; intros n _ H; unfold hg; now rewrite H).
        destruct new as [m|] eqn:En; cbn [olist map]; [|now rewrite !app_nil_r].
        rewrite combine_app by (now rewrite !map_length). rewrite fold_left_app. cbn [combine fold_left fst snd]. unfold hd, hg. rewrite (new_is m) by exact En. lia. }
      rewrite HO. fold legs.
      destruct new as [m|] eqn:En.
      - cbn [bind]. rewrite !map_app, HL1, HL2. cbn [map fst snd olist]. rewrite Nf.
        assert (Q1 : hc m = total) by (unfold hc; now rewrite (new_is m)). assert (Q2 : hd m = 1) by (unfold hd; now rewrite (new_is m)).
        rewrite Q1, Q2. reflexivity.
      - destruct (@is_nosym S SS) eqn:Ns; cbn [negb andb].
        + cbn [bind]. rewrite !app_nil_r, HL1, HL2. reflexivity.
        + rewrite (Hz eq_refl) at 1. rewrite eqb_refl. cbn [negb bind]. rewrite !app_nil_r, HL1, HL2. reflexivity.
    Qed.

    Lemma hot_lt : forall n, In n ns -> hg n < hd n.
    Proof.
      intros n Hin. apply names_in in Hin as [Hin|Hin]; unfold hg, hd.
      - apply in_K in Hin as [H1 H2]. rewrite (not_new n H1). now apply keep_edge.
      - rewrite (new_is n Hin). auto.
    Qed.
    Lemma hot_sum : (new = None -> total = szero) -> ssum (map hc ns) = szero.
    Proof.
      intro Hz. rewrite map_app, ssum_app. replace (map hc K) with (map sneg (map ch K)) by (rewrite map_map; apply map_K; intros n _ H; unfold hc; now rewrite H).
      rewrite ssum_neg. destruct new as [m|] eqn:En; cbn [olist map].
      - rewrite ssum_single. unfold hc. rewrite (new_is m) by exact En. rewrite sadd_comm. apply sadd_neg_r.
      - rewrite (Hz eq_refl). change (ssum (@nil S)) with (@szero S SS). rewrite sadd_comm. apply sadd_neg_r.
    Qed.
    Lemma common_is : filter (fun n => member n (t_names t)) ns = K.
    Proof.
      rewrite filter_app. rewrite (filter_all _ _ K).
      - destruct new as [m|] eqn:En; cbn [olist filter]; [|apply app_nil_r]. replace (member m (t_names t)) with false; [apply app_nil_r|]. symmetry. apply mem_name_false. now apply Nn.
      - intros n Hin. apply mem_name_In. now apply in_K in Hin.
    Qed.
    Lemma rest_is : free_names ns K = olist new.
    Proof.
      unfold free_names. rewrite filter_app. rewrite (filter_none _ _ K).
      - cbn [app]. destruct new as [m|] eqn:En; cbn [olist filter]; [|reflexivity]. replace (member m K) with false; [reflexivity|]. symmetry. apply mem_name_false. intro H. apply in_K in H as [H _]. now apply (Nn m).
      - intros n Hin. apply negb_false_iff. now apply mem_name_In.
    Qed.
    Lemma free_is : free_names (t_names t) K = free_names (t_names t) (map fst cfg).
    Proof.
      unfold free_names. apply filter_ext_in. intros n Hin. f_equal. apply eq_true_iff_eq. rewrite !(mem_name_In n). rewrite in_K. tauto.
    Qed.
    Lemma common_edge : forall n, In n ns -> In n (t_names t) -> emap (edge_named (legs_of t) n) = [(sneg (hc n), hd n)].
    Proof.
      intros n H1 H2. apply names_in in H1 as [H1|H1]; [|exfalso; now apply (Nn n)]. apply in_K in H1 as [_ H1]. unfold hc, hd. rewrite (not_new n H2), sneg_invol. now apply keep_edge.
    Qed.
    Lemma full_is : forall pos n, In n (t_names t) -> mfind n (combine K (map (fun n => (sneg (hc n), hg n)) K) ++ pos) = mfind n (cfg ++ pos).
    Proof.
      intros pos n Hin. rewrite !mfind_app. destruct (in_dec Nat.eq_dec n (map fst cfg)) as [Hx|Hx].
      - assert (HK : In n K) by (now apply in_K). replace (mfind n cfg) with (Some (coord cfg n)) by (unfold coord; apply mfind_Some_In in Hx as [x Hx]; now rewrite Hx).
        replace (mfind n (combine K (map (fun n => (sneg (hc n), hg n)) K))) with (Some (coord cfg n)); [reflexivity|]. symmetry.
        rewrite (map_K _ _ (coord cfg)).
        + pose proof (assigns_combine K (map (coord cfg) K) (NoDup_filter _ _ _ (wf_nodup t Wt)) (eq_sym (map_length _ _))) as Ha. unfold assigns in Ha. rewrite map_map in Ha.
          exact (ext_in_map Ha n HK).
        + intros m _ H. unfold hc, hg. rewrite H, sneg_invol. now rewrite <- surjective_pairing.
      - rewrite find_combine_none; [|now rewrite map_length|]; [|intro HK; apply in_K in HK; tauto]. now rewrite (proj2 (mfind_None cfg n) Hx).
    Qed.
    (** the index on the new edge can only be zero *)
    Lemma new_hot : forall pos, (forall n, new = Some n -> snd (coord pos n) < 1) -> forallb (fun n => snd (coord pos n) =? hg n) (olist new) = true.
    Proof.
      intros pos H. apply forallb_forall. intros n Hin. assert (Hn : new = Some n) by (destruct new as [m|]; [destruct Hin as [->|[]]; reflexivity|destruct Hin]).
      unfold hg. rewrite (new_is n Hn). apply Nat.eqb_eq. specialize (H n Hn). lia.
    Qed.
  End One.

  Lemma shrink_plain : @is_nosym S SS = true -> NoDup [i_contract_0 I; i_contract_1 I; i_contract_2 I] ->
    forall (t : tensor S R) cfg new arrow, wf_tensor t -> t_blocks t <> [] -> (forall n, new = Some n -> ~ In n (t_names t)) ->
    (forall n s i, In (n, (s, i)) cfg -> In n (t_names t) -> exists k, In (s, k) (emap (edge_named (legs_of t) n)) /\ i < k) ->
    exists r, shrink E I t cfg new arrow = Ok r /\ wf_tensor r /\ t_blocks r <> [] /\ t_names r = olist new ++ free_names (t_names t) (map fst cfg) /\
      t_edges r = map (fun _ => mkEdge false [(szero, 1)]) (olist new) ++ map (edge_named (legs_of t)) (free_names (t_names t) (map fst cfg)) /\
      forall pos pt, assigns pos (t_names r) pt -> valid_pt (t_core r) pt -> const_at r pos = const_at t (cfg ++ pos).
  Proof.
    intros Ns NI t cfg new arrow Wt Bt Nn Hcfg.
    assert (Hcfg' : forall n s i, In (n, (s, i)) cfg -> In n (t_names t) -> exists k, emap (edge_named (legs_of t) n) = [(s, k)] /\ i < k).
    { intros n s i Hx Hin. destruct (Hcfg n s i Hx Hin) as [k [Hk Hlt]]. exists k. split; [|exact Hlt].
      pose proof (plain_maps Ns t Wt Bt) as Hm. rewrite <- (legs_to_edges t Wt) in Hm. unfold maps_of in Hm. rewrite !map_map in Hm.
      pose proof (ext_in_map Hm n Hin) as He. cbn beta in He. fold (legs_of t) in He. rewrite He in *. destruct Hk as [Hk|[]]. now rewrite Hk. }
    clear Hcfg. rename Hcfg' into Hcfg.
    assert (Hz : new = None -> ssum (map (fun n => fst (coord cfg n)) (filter (fun n => member n (map fst cfg)) (t_names t))) = szero) by (intros _; apply (nosym_unit Ns)).
    rewrite (shrink_reduces t cfg new arrow Wt Nn Hcfg Hz).
    destruct (one_hot_ok E (hc t cfg new) (hd t new) (hg cfg new) (fun _ => false) _ (names_nodup t cfg new Wt Nn) (hot_sum t cfg new Nn Hz) (hot_lt t cfg new Nn Hcfg)) as [h [H1 [H2 [H3 [H4 [H5 H6]]]]]].
    rewrite H1. cbn [bind].
    destruct (hot_plain E I (hc t cfg new) (hd t new) (hg cfg new) (fun _ => false) EA h t _ H2 H3 H4 H5 (hot_sum t cfg new Nn Hz) (hot_lt t cfg new Nn Hcfg) Wt H6 (common_edge t cfg new Nn Hcfg) Ns Nf NI Bt) as [r [R1 [R2 [R3 [R4 [R5 R6]]]]]].
    rewrite (common_is t cfg new Nn), (rest_is t cfg new Nn), free_is in R4, R5. rewrite (common_is t cfg new Nn), (rest_is t cfg new Nn) in R6.
    exists r. do 4 (split; [assumption|]). split.
    - rewrite R5. f_equal. apply map_ext_in. intros n Hin. rewrite (nosym_unit Ns (hc t cfg new n)). unfold hd. rewrite (new_is new n); [reflexivity|].
      destruct new as [m|]; [destruct Hin as [->|[]]; reflexivity|destruct Hin].
    - intros pos pt Ha Hv. rewrite (R6 pos pt Ha Hv). rewrite (new_hot t cfg new Nn).
      + apply const_at_ext. apply full_is; auto.
      + intros n Hn. pose proof (assigns_coord _ _ _ Ha) as Hpt. destruct Hv as [Hv _]. change (c_edges (t_core r)) with (t_edges r) in Hv. subst pt. rewrite R4, R5 in Hv. unfold maps_of in Hv. rewrite !map_app, !map_map in Hv. apply in_range_app in Hv as [Hv _]; [|now rewrite !map_length].
        destruct (proj1 (in_range_named _ _ _) Hv n) as [k [[Hk|[]] Hlt]]; [subst new; now left|]. cbn [emap] in Hk. injection Hk as _ Hk. unfold hd in Hk. rewrite (new_is new n Hn) in Hk. now subst k.
  Qed.
  Lemma shrink_sym : @is_nosym S SS = false -> i_contract_1 I <> i_contract_2 I ->
    forall (t : tensor S R) cfg new arrow, wf_tensor t -> (forall n, new = Some n -> ~ In n (t_names t)) ->
    (forall n s i, In (n, (s, i)) cfg -> In n (t_names t) -> exists k, emap (edge_named (legs_of t) n) = [(s, k)] /\ i < k) ->
    let fixed := filter (fun n => member n (map fst cfg)) (t_names t) in
    let charge := ssum (map (fun n => fst (coord cfg n)) fixed) in
    (new = None -> charge = szero) -> length fixed <= 1 \/ (forall s : S, sneg s = s) ->
    exists r, shrink E I t cfg new arrow = Ok r /\ wf_tensor r /\ t_names r = olist new ++ free_names (t_names t) (map fst cfg) /\
      (forall pt, valid_pt (t_core r) pt <-> in_range (map (fun _ => [(charge, 1)]) (olist new) ++ map (fun n => emap (edge_named (legs_of t) n)) (free_names (t_names t) (map fst cfg))) pt /\ ssum (map fst pt) = szero) /\
      forall pos pt, assigns pos (t_names r) pt -> valid_pt (t_core r) pt -> const_at r pos = const_at t (cfg ++ pos).
  Proof.
    intros Ns NI t cfg new arrow Wt Nn Hcfg fixed charge Hz HP.
    rewrite (shrink_reduces t cfg new arrow Wt Nn Hcfg Hz).
    destruct (one_hot_ok E (hc t cfg new) (hd t new) (hg cfg new) (fun _ => false) _ (names_nodup t cfg new Wt Nn) (hot_sum t cfg new Nn Hz) (hot_lt t cfg new Nn Hcfg)) as [h [H1 [H2 [H3 [H4 [H5 H6]]]]]].
    rewrite H1. cbn [bind].
    destruct (hot_sym E I (hc t cfg new) (hd t new) (hg cfg new) (fun _ => false) EA h t _ H2 H3 H4 H5 (hot_sum t cfg new Nn Hz) (hot_lt t cfg new Nn Hcfg) Wt H6 (common_edge t cfg new Nn Hcfg) Ns Nf NI) as [r [R1 [R2 [R4 [R5 R6]]]]].
    { rewrite (common_is t cfg new Nn). exact HP. }
    rewrite (common_is t cfg new Nn), (rest_is t cfg new Nn), free_is in R4, R5. rewrite (common_is t cfg new Nn), (rest_is t cfg new Nn) in R6.
    assert (Hm : map (fun n => [(hc t cfg new n, hd t new n)]) (olist new) = map (fun _ => [(charge, 1)]) (olist new)).
    { apply map_ext_in. intros n Hin. unfold hc, hd. rewrite (new_is new n); [reflexivity|]. destruct new as [m|]; [destruct Hin as [->|[]]; reflexivity|destruct Hin]. }
    rewrite Hm in R5. exists r. do 4 (split; [assumption|]).
    intros pos pt Ha Hv. rewrite (R6 pos pt Ha Hv). rewrite (new_hot t cfg new Nn).
    - apply const_at_ext. apply full_is; auto.
    - intros n Hn. pose proof (assigns_coord _ _ _ Ha) as Hpt. apply R5 in Hv as [Hv _]. subst pt. rewrite R4 in Hv. rewrite !map_app in Hv. apply in_range_app in Hv as [Hv _]; [|now rewrite !map_length].
      destruct (proj1 (in_range_named (fun _ => [(charge, 1)]) _ _) Hv n) as [k [[Hk|[]] Hlt]]; [subst new; now left|]. injection Hk as _ <-. exact Hlt.
  Qed.
End Shrink.
