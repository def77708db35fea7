(** The operator of imaginary time evolution is the Pade approximation of the exponential of -delta_t times the term. *)
From Coq Require Import String List Bool Arith ZArith Lia Permutation.
From Verif Require Import Base.Outcome Base.SMap Model.Symmetry Model.Edge Model.Core Model.EdgeOperator Model.Elementwise Model.Exponential Model.SimpleTensor Model.Evolution
  Spec.Blocks Spec.Fuse Spec.Relabel Spec.Contract Spec.Matrix Spec.Operator Spec.Plain Spec.ExactOperator Spec.Evolution
  Proof.SymmetryFacts Proof.CoreFacts Proof.ElemFacts Proof.LegFacts Proof.RegroupFacts Proof.ContractPlain Proof.PlainFacts Proof.PlainElem Proof.MergeNames Proof.ExpOperator.
Import ListNotations.
Open Scope nat_scope.

Section Tuples.
  Variable d : nat.
  Fixpoint spin_tuples (k : nat) : list (list nat) := match k with O => [[]] | S k => flat_map (fun x => map (cons x) (spin_tuples k)) (seq 0 d) end.
  Lemma spin_tuples_in : forall k l, In l (spin_tuples k) <-> site_spins k d l.
  Proof.
    induction k as [|k IH]; intros t; cbn [spin_tuples].
    - split; [intros [<-|[]]; split; [reflexivity|intros s []]|]. intros [H _]. destruct t; [now left|discriminate].
    - rewrite in_flat_map. split.
      + intros [x [Hx Ht]]. apply in_map_iff in Ht as [t' [<- Ht]]. apply IH in Ht as [H1 H2]. apply in_seq in Hx. split; [cbn; now rewrite H1|]. intros s [<-|Hs]; [lia|now apply H2].
      + intros [H1 H2]. destruct t as [|x t]; [discriminate|]. exists x. split; [apply in_seq; pose proof (H2 x (or_introl eq_refl)); lia|]. apply in_map, IH. split; [now injection H1|]. intros s Hs. apply H2. now right.
  Qed.
  Lemma spin_tuples_length : forall k, length (spin_tuples k) = d ^ k.
  Proof.
    induction k as [|k IH]; [reflexivity|]. cbn [spin_tuples Nat.pow]. rewrite <- IH. transitivity (length (seq 0 d) * length (spin_tuples k)); [|now rewrite seq_length].
    generalize (seq 0 d). induction l as [|x l IHl]; [reflexivity|]. cbn [flat_map length Nat.mul]. now rewrite app_length, map_length, IHl.
  Qed.
  Lemma spin_tuples_nodup : forall k, NoDup (spin_tuples k).
  Proof.
    induction k as [|k IH]; [repeat constructor; intros []|]. cbn [spin_tuples]. assert (ND : NoDup (seq 0 d)) by apply seq_NoDup. revert ND. generalize (seq 0 d). induction l as [|x l IHl]; intros ND; [constructor|]. inversion ND as [|? ? Hx ND']; subst. cbn [flat_map].
    assert (A : NoDup (map (cons x) (spin_tuples k))).
    { apply FinFun.Injective_map_NoDup; [intros a b H; now injection H|exact IH]. }
    assert (Q : forall t, In t (map (cons x) (spin_tuples k)) -> ~ In t (flat_map (fun x => map (cons x) (spin_tuples k)) l)).
    { intros t Ht Ht'. apply in_map_iff in Ht as [t1 [<- _]]. apply in_flat_map in Ht' as [y [Hy Ht']]. apply in_map_iff in Ht' as [t2 [E _]]. injection E as -> _. contradiction. }
    revert A Q. generalize (map (cons x) (spin_tuples k)). induction l0 as [|y l0 IH0]; intros A Q; [now apply IHl|]. inversion A as [|? ? Hy A']; subst. cbn. constructor.
    - rewrite in_app_iff. intros [H|H]; [contradiction|]. exact (Q y (or_introl eq_refl) H).
    - apply IH0; [exact A'|]. intros t Ht. apply Q. now right.
  Qed.
End Tuples.

Lemma lt_same : forall ds es, length ds = length es -> Forall (fun e => 0 < e) es -> (forall l, Forall2 lt l ds <-> Forall2 lt l es) -> ds = es.
Proof.
  induction ds as [|a ds IH]; intros [|b es] L P H; try discriminate L; [reflexivity|]. injection L as L. inversion P as [|? ? Pb Pe]; subst.
  assert (Z : Forall2 lt (map (fun _ => 0) es) es) by (clear - Pe; induction Pe; constructor; auto).
  assert (Z' : Forall2 lt (map (fun _ => 0) es) ds) by (assert (Q : Forall2 lt (0 :: map (fun _ => 0) es) (a :: ds)) by (apply H; now constructor); now inversion Q).
  f_equal.
  - assert (U : forall x, x < a <-> x < b).
    { intros x. split; intros Hx.
      - assert (Q : Forall2 lt (x :: map (fun _ => 0) es) (b :: es)) by (apply H; now constructor). now inversion Q.
      - assert (Q : Forall2 lt (x :: map (fun _ => 0) es) (a :: ds)) by (apply H; now constructor). now inversion Q. }
    destruct (lt_eq_lt_dec a b) as [[X|X]|X]; [|exact X|]; exfalso; [pose proof (proj2 (U a) X)|pose proof (proj1 (U b) X)]; lia.
  - apply IH; [exact L|exact Pe|]. intros l. split; intros Hl.
    + assert (Q : Forall2 lt (0 :: l) (b :: es)); [|now inversion Q]. apply H. constructor; [|exact Hl]. assert (Q : Forall2 lt (0 :: map (fun _ => 0) es) (a :: ds)) by (apply H; now constructor). now inversion Q.
    + assert (Q : Forall2 lt (0 :: l) (a :: ds)); [|now inversion Q]. apply H. now constructor.
Qed.

Section Evolution.
  Context {R : Type} {RR : Scalar R} {ER : ExpScalar R}.
  Implicit Types t r : tensor unit R.
  Lemma own_slots : forall t, wf_tensor t -> t_blocks t <> [] -> has t (map (fun n => (n, dimension t n)) (t_names t)).
  Proof.
    intros t W B. constructor; [exact W|exact B|]. intros n. unfold slot. destruct (in_dec Nat.eq_dec n (t_names t)) as [H|H].
    - clear W. revert H. generalize (dimension t) as f. induction (t_names t) as [|m l IH]; intros f H; [destruct H|]. cbn [map mfind]. destruct (Nat.eq_dec n m) as [->|Hm]; [now rewrite eqb_refl|]. rewrite (neqb n m Hm). apply IH. destruct H; congruence.
    - assert (F : mfind n (map (fun n => (n, dimension t n)) (t_names t)) = None) by (apply mfind_None; rewrite map_map, map_id; exact H). rewrite F.
      destruct (dimension t n) eqn:D; [|reflexivity]. exfalso. apply H. apply (dimension_named t n W). congruence.
  Qed.
  Lemma operator_names : forall k d t, fits_operator k d t -> Permutation (t_names t) (map fst (site_pairs k) ++ map snd (site_pairs k)).
  Proof.
    intros k d t F. unfold site_pairs. rewrite !map_map. cbn [fst snd]. apply NoDup_Permutation; [apply (wf_nodup _ (o_wf _ _ _ F))| |].
    - apply NoDup_app_intro.
      + apply FinFun.Injective_map_NoDup; [intros a b H; unfold in_name in H; lia|apply seq_NoDup].
      + apply FinFun.Injective_map_NoDup; [intros a b H; unfold out_name in H; lia|apply seq_NoDup].
      + intros n H1 H2. apply in_map_iff in H1 as [i [<- _]]. apply in_map_iff in H2 as [j [H _]]. unfold in_name, out_name in H. lia.
    - intros n. rewrite in_app_iff, !in_map_iff. split.
      + intros H. apply (o_only _ _ _ F) in H as [i [Hi [-> | ->]]]; [left|right]; exists i; (split; [reflexivity|apply in_seq; lia]).
      + intros [[i [<- Hi]]|[i [<- Hi]]]; apply in_seq in Hi; apply (dimension_named t _ (o_wf _ _ _ F)); [rewrite (o_in _ _ _ F i)|rewrite (o_out _ _ _ F i)]; (lia || discriminate).
  Qed.
  Lemma operator_edge : forall k d t n, fits_operator k d t -> In n (t_names t) -> emap (edge_named (legs_of t) n) = [(tt, d)].
  Proof.
    intros k d t n F H. destruct (dimension_of t n (o_wf _ _ _ F) (o_block _ _ _ F) H) as [D ->]. destruct (o_only _ _ _ F n H) as [i [Hi [-> | ->]]]; [rewrite (o_in _ _ _ F i Hi) in D|rewrite (o_out _ _ _ F i Hi) in D]; injection D as <-; reflexivity.
  Qed.

  Definition spots (k : nat) (ins outs : list nat) : list (nat * nat) := combine (map in_name (seq 0 k)) ins ++ combine (map out_name (seq 0 k)) outs.
  Lemma spots_found : forall k d ins outs n, site_spins k d ins -> site_spins k d outs -> (exists i, i < k /\ (n = in_name i \/ n = out_name i)) ->
    exists v, mfind n (spots k ins outs) = Some v /\ v < d.
  Proof.
    intros k d ins outs n [L1 B1] [L2 B2] [i [Hi Hn]]. destruct (mfind n (spots k ins outs)) as [v|] eqn:F.
    - exists v. split; [reflexivity|]. apply mfind_In in F. apply in_app_iff in F as [F|F]; apply in_combine_r in F; auto.
    - exfalso. apply mfind_None in F. apply F. unfold spots. rewrite map_app, !combine_map_fst by (rewrite map_length, seq_length; congruence). apply in_app_iff.
      destruct Hn as [-> | ->]; [left|right]; apply in_map, in_seq; lia.
  Qed.
  Lemma row_column_spots : forall k ins outs, row_column (site_pairs k) (map (fun i => (tt, i)) ins) (map (fun i => (tt, i)) outs) = map (fun p => (fst p, (tt, snd p))) (spots k ins outs).
  Proof.
    intros k ins outs. unfold row_column, spots, site_pairs. rewrite !map_map. cbn [fst snd]. rewrite map_app.
    assert (C : forall (l : list nat) (v : list nat), combine l (map (fun i => (tt, i)) v) = map (fun p => (fst p, (tt, snd p))) (combine l v)).
    { induction l as [|x l IH]; intros [|y v]; try reflexivity. cbn. now rewrite IH. }
    rewrite (map_ext (fun x => opposite (tt, x)) (fun x => (tt, x))); [|intros x; reflexivity]. now rewrite !C.
  Qed.
  Lemma operator_read : forall k d t ins outs, fits_operator k d t -> site_spins k d ins -> site_spins k d outs ->
    const_at t (row_column (site_pairs k) (map (fun i => (tt, i)) ins) (map (fun i => (tt, i)) outs)) = Ok (operator_element k t ins outs).
  Proof.
    intros k d t ins outs F H1 H2. rewrite row_column_spots. unfold operator_element. fold (spots k ins outs).
    apply (read_at t (map (fun n => (n, dimension t n)) (t_names t))); [apply own_slots; apply F| |].
    - intros n. assert (S := h_dim _ _ (own_slots t (o_wf _ _ _ F) (o_block _ _ _ F)) n). rewrite <- S. destruct (dimension t n) as [dn|] eqn:D; [left|now right].
      assert (Hn : In n (t_names t)) by (apply (dimension_named t n (o_wf _ _ _ F)); congruence). assert (Hx := o_only _ _ _ F n Hn).
      destruct (spots_found k d ins outs n H1 H2 Hx) as [v [Ev Hv]]. unfold index. rewrite Ev. destruct Hx as [i [Hi [-> | ->]]]; [rewrite (o_in _ _ _ F i Hi) in D|rewrite (o_out _ _ _ F i Hi) in D]; injection D as <-; exact Hv.
    - intros n Hn. destruct (spots_found k d ins outs n H1 H2 (o_only _ _ _ F n Hn)) as [v [Ev Hv]]. unfold index. rewrite Ev. clear - Ev. revert Ev. induction (spots k ins outs) as [|[m w] l IH]; [discriminate|]. cbn [map mfind fst snd].
      destruct (eqb n m); [intros Q; injection Q as <-; reflexivity|exact IH].
  Qed.
  Lemma site_points : forall k d x, in_range (repeat [(tt, d)] k) x <-> exists l, x = map (fun i => (tt, i)) l /\ site_spins k d l.
  Proof.
    intros k d x. replace (repeat [(tt, d)] k) with (map (fun d => [(szero (S := unit), d)]) (repeat d k)) by (induction k as [|k IH]; [reflexivity|]; cbn [repeat map]; now rewrite IH).
    rewrite plain_point. split; intros [l [-> H]]; exists l; (split; [reflexivity|]).
    - revert l H. induction k as [|k IH]; intros l H; inversion H as [|a b l' ds Hab Hl]; subst; [split; [reflexivity|intros s []]|]. destruct (IH l' Hl) as [L B]. split; [cbn; now rewrite L|]. intros s [<-|Hs]; auto.
    - destruct H as [L B]. revert l L B. induction k as [|k IH]; intros [|a l] L B; try discriminate L; constructor; [apply B; now left|]. apply IH; [now injection L|]. intros s Hs. apply B. now right.
  Qed.

  Lemma names_maps : forall k d t l, fits_operator k d t -> incl l (t_names t) -> map (fun n => emap (edge_named (legs_of t) n)) l = repeat [(tt, d)] (length l).
  Proof.
    intros k d t l F. induction l as [|n l IH]; intros H; [reflexivity|]. cbn [map length repeat]. rewrite (operator_edge k d t n F) by (apply H; now left). rewrite IH by (intros m Hm; apply H; now right). reflexivity.
  Qed.
  Lemma fst_pairs : forall k, map fst (site_pairs k) = map in_name (seq 0 k).
  Proof. intros k. unfold site_pairs. now rewrite map_map. Qed.

  Hypothesis EF : exact_field R of_int.
  Variables (E : @env R) (gesv : gesv_routine R) (no_name X1 X2 : name).
  Hypothesis HX : X1 <> X2.

  Theorem exponential_fits : forall k d t q, fits_operator k d t -> 0 < d -> (Z.of_nat q * (Z.of_nat q + 1) < 2 ^ 31)%Z ->
    exists (pos : list nat -> nat) (H : matrix),
      numbers_spins k d pos /\
      (forall ins outs, site_spins k d ins -> site_spins k d outs -> H (pos ins) (pos outs) = operator_element k t ins outs) /\
      forall (lg : Z) (V : matrix), let scaled := mscale (rdiv rone (of_int (2 ^ Z.of_nat (Z.to_nat (1 + lg))))) H in
      solves gesv (d ^ k) -> (forall l, lists (d ^ k) l H -> trunc_log2 (Spec.Matrix.largest real_lt real_zero (map rabs l)) = Some lg) -> (- 2 ^ 31 <= lg < 30)%Z ->
      inverse (d ^ k) V (pade_polynomial (d ^ k) of_int q (mopp scaled)) ->
      exists U, exponential E gesv no_name X1 X2 t (site_pairs k) (Z.of_nat q) = Ok U /\ fits_operator k d U /\
        forall ins outs, site_spins k d ins -> site_spins k d outs ->
          operator_element k U ins outs = mpow (d ^ k) (mmul (d ^ k) V (pade_polynomial (d ^ k) of_int q scaled)) (2 ^ Z.to_nat (1 + lg)) (pos ins) (pos outs).
  Proof.
    intros k d t q F Hd Hq. assert (P := operator_names k d t F). assert (W := o_wf _ _ _ F).
    assert (Inc : incl (map fst (site_pairs k)) (t_names t)) by (intros n Hn; apply (Permutation_in _ (Permutation_sym P)), in_app_iff; now left).
    assert (Inc2 : incl (map snd (site_pairs k)) (t_names t)) by (intros n Hn; apply (Permutation_in _ (Permutation_sym P)), in_app_iff; now right).
    destruct (exponential_operator (SS := _) (SL := _) Nf EF E gesv no_name X1 X2 HX t (site_pairs k) q W P) as [cnt [idx [Op [M [Num [HOp [HM Main]]]]]]].
    - intros a b s dd Hab. rewrite (operator_edge k d t a F) by (apply Inc; exact (in_map fst _ _ Hab)). rewrite (operator_edge k d t b F) by (apply Inc2; exact (in_map snd _ _ Hab)). destruct s. reflexivity.
    - right. now intros [].
    - exact Hq.
    - rewrite (names_maps k d t _ F Inc), fst_pairs, map_length, seq_length in *. 
      assert (Tot : forall x : list (unit * nat), total x = tt) by (intros x; now destruct (total x)).
      destruct Num as [N1 [N2 N3]].
      set (pos := fun l : list nat => idx (map (fun i => (tt, i)) l)).
      assert (Pt : forall l, site_spins k d l -> in_range (repeat [(tt, d)] k) (map (fun i => (tt, i)) l)) by (intros l Hl; apply site_points; now exists l).
      assert (Inj : forall l l' : list nat, map (fun i => (tt, i)) l = map (fun i => (tt, i)) l' -> l = l').
      { induction l as [|a l IH]; intros [|b l'] Q; try discriminate Q; [reflexivity|]. injection Q as -> Q. f_equal. now apply IH. }
      assert (A1 : forall l, site_spins k d l -> pos l < cnt tt) by (intros l Hl; pose proof (N1 _ (Pt l Hl)) as Q; now rewrite Tot in Q).
      assert (A2 : forall l l', site_spins k d l -> site_spins k d l' -> pos l = pos l' -> l = l') by (intros l l' Hl Hl' Q; apply Inj, N2; auto; now rewrite !Tot).
      assert (A3 : forall i, i < cnt tt -> exists l, site_spins k d l /\ pos l = i).
      { intros i Hi. destruct (N3 tt i Hi) as [x [Hx [_ Q]]]. apply site_points in Hx as [l [-> Hl]]. now exists l. }
      assert (C : cnt tt = d ^ k).
      { rewrite <- spin_tuples_length, <- (seq_length (cnt tt) 0), <- (map_length pos). apply Permutation_length, NoDup_Permutation; [apply seq_NoDup| |].
        - assert (ND := spin_tuples_nodup d k). assert (B : forall l, In l (spin_tuples d k) -> site_spins k d l) by (intros l Hl; now apply spin_tuples_in). revert ND B. generalize (spin_tuples d k). induction l as [|a l IH]; intros ND B; [constructor|]. inversion ND as [|? ? Ha ND']; subst.
          cbn [map]. constructor; [|apply IH; [exact ND'|intros x Hx; apply B; now right]]. intros Hp. apply in_map_iff in Hp as [b [Q Hb]]. apply Ha. rewrite <- (A2 b a); [exact Hb| | |exact Q]; apply B; [now right|now left].
        - intros i. rewrite in_seq, in_map_iff. split.
          + intros Hi. destruct (A3 i ltac:(lia)) as [l [Hl Q]]. exists l. split; [exact Q|now apply spin_tuples_in].
          + intros [l [<- Hl]]. apply spin_tuples_in in Hl. pose proof (A1 l Hl). lia. }
      rewrite C in *. exists pos, (Op tt). split; [split; [exact A1|split; [exact A2|exact A3]]|].
      split.
      { intros ins outs H1 H2. pose proof (HOp _ _ (Pt ins H1) (Pt outs H2)) as Q. rewrite !Tot in Q. unfold pos. rewrite (Q eq_refl). unfold element. now rewrite (operator_read k d t ins outs F H1 H2). }
      intros lg V scaled Sol Lg Rg Inv.
      destruct (Main (fun _ => lg) (fun _ => V)) as [U [EU [WU [PU [VU Val]]]]].
      { intros c Hc. cbn zeta. pose proof (HM c Hc) as Q. rewrite !Tot in *. rewrite C in *. split; [apply Nat.neq_0_lt_0, Nat.pow_nonzero; lia|]. split; [exact Sol|]. split; [now apply Lg|]. split; [exact Rg|exact Inv]. }
      exists U. split; [exact EU|].
      assert (Z0 : site_spins k d (repeat 0 k)) by (split; [apply repeat_length|intros s Hs; apply repeat_spec in Hs; lia]).
      assert (BU : t_blocks U <> []).
      { intros B. pose proof (Val _ _ (Pt _ Z0) (Pt _ Z0) eq_refl) as Q. unfold const_at in Q. destruct (get_block_and_offset _ _ _) as [so| | |]; cbn [bind] in Q; try discriminate Q. unfold find_block in Q. change (c_blocks (t_core U)) with (t_blocks U) in Q. rewrite B in Q. discriminate Q. }
      assert (IncU : incl (t_names U) (t_names t)) by (intros n Hn; exact (Permutation_in _ (Permutation_sym PU) Hn)).
      assert (Dims : map (dim_of U) (t_names U) = repeat d (length (t_names U))).
      { apply lt_same; [now rewrite map_length, repeat_length|apply Forall_forall; intros e He; apply repeat_spec in He; now subst|].
        intros l. specialize (VU (map (fun i => (tt, i)) l)). unfold valid_pt in VU. change (c_edges (t_core U)) with (t_edges U) in VU. rewrite (plain_maps Ns U WU BU), (names_maps k d t _ F IncU) in VU.
        assert (Q1 := plain_point (S := unit) (map (dim_of U) (t_names U)) (map (fun i => (tt, i)) l)). assert (Q2 := site_points (length (t_names U)) d (map (fun i => (tt, i)) l)).
        assert (Fl : forall n, Forall2 lt l (repeat d n) <-> site_spins n d l).
        { clear. intros n. revert l. induction n as [|n IH]; intros l; cbn [repeat].
          - split; [intros X; inversion X; split; [reflexivity|intros s []]|]. intros [L _]. destruct l; [constructor|discriminate].
          - split; [intros X; inversion X as [|a b l' ds Hab Hl]; subst; apply IH in Hl as [L B]; split; [cbn; now rewrite L|intros s [<-|Hs]; auto]|].
            intros [L B]. destruct l as [|a l]; [discriminate|]. constructor; [apply B; now left|]. apply IH. split; [now injection L|]. intros s Hs. apply B. now right. }
        rewrite Fl. assert (T0 : ssum (map fst (map (fun i : nat => (tt, i)) l)) = szero) by (now destruct (ssum _)). split; intros X.
        - assert (Y : in_range (map (fun d => [(szero (S := unit), d)]) (map (dim_of U) (t_names U))) (map (fun i => (tt, i)) l)) by (apply Q1; exists l; now split).
          apply proj1 in VU. specialize (VU (conj Y T0)). apply proj1 in VU. apply Q2 in VU as [l' [Q Hl]]. apply Inj in Q. now subst.
        - apply proj2 in VU. assert (Y : in_range (repeat [(tt, d)] (length (t_names U))) (map (fun i => (tt, i)) l)) by (apply Q2; exists l; now split). specialize (VU (conj Y T0)). apply proj1 in VU. apply Q1 in VU as [l' [Q Hl]]. apply Inj in Q. now subst. }
      assert (Dn : forall n, In n (t_names U) -> dimension U n = Some d).
      { intros n Hn. rewrite (proj1 (dimension_of U n WU BU Hn)). f_equal. apply (repeat_spec (length (t_names U)) d). rewrite <- Dims. now apply in_map. }
      assert (NU : forall n, In n (t_names t) -> In n (t_names U)) by (intros n Hn; exact (Permutation_in _ PU Hn)).
      assert (FU : fits_operator k d U).
      { constructor; [exact WU|exact BU| | |].
        - intros i Hi. apply Dn, NU, Inc. apply in_map, in_seq. lia.
        - intros i Hi. apply Dn, NU, Inc2. unfold site_pairs. rewrite map_map. cbn [snd]. apply (in_map out_name), in_seq. lia.
        - intros n Hn. apply (o_only _ _ _ F), IncU, Hn. }
      split; [exact FU|]. intros ins outs H1 H2. pose proof (Val _ _ (Pt ins H1) (Pt outs H2) ltac:(now rewrite !Tot)) as Q. cbn zeta in Q. rewrite (operator_read k d U ins outs FU H1 H2), !Tot, C in Q. injection Q as Q. exact Q.
  Qed.

  (** -delta_t times the term *)
  Lemma scaled_fits : forall k d (f : R -> R) t, fits_operator k d t -> exists x, scalar_number E f t = Ok x /\ fits_operator k d x /\
    forall ins outs, site_spins k d ins -> site_spins k d outs -> operator_element k x ins outs = f (operator_element k t ins outs).
  Proof.
    intros k d f t F. assert (O := own_slots t (o_wf _ _ _ F) (o_block _ _ _ F)). destruct (number_has E f t _ O) as [x [Ex [Hx Vx]]]. exists x. split; [exact Ex|].
    assert (D : forall n, dimension x n = dimension t n) by (intros n; now rewrite (h_dim _ _ Hx), (h_dim _ _ O)).
    assert (FX : fits_operator k d x).
    { constructor; [apply (h_wf _ _ Hx)|apply (h_block _ _ Hx)| | |].
      - intros i Hi. rewrite D. now apply (o_in _ _ _ F).
      - intros i Hi. rewrite D. now apply (o_out _ _ _ F).
      - intros n Hn. apply (o_only _ _ _ F). apply (dimension_named t n (o_wf _ _ _ F)). rewrite <- D. now apply (dimension_named x n (h_wf _ _ Hx)). }
    split; [exact FX|]. intros ins outs H1 H2. unfold operator_element. apply Vx. fold (spots k ins outs).
    intros n. rewrite <- (h_dim _ _ O n). destruct (dimension t n) as [dn|] eqn:Dt; [left|now right].
    assert (Hn : In n (t_names t)) by (apply (dimension_named t n (o_wf _ _ _ F)); congruence). assert (Hs := o_only _ _ _ F n Hn).
    destruct (spots_found k d ins outs n H1 H2 Hs) as [v [Ev Hv]]. unfold index. rewrite Ev. destruct Hs as [i [Hi [-> | ->]]]; [rewrite (o_in _ _ _ F i Hi) in Dt|rewrite (o_out _ _ _ F i Hi) in Dt]; injection Dt as <-; exact Hv.
  Qed.
  Theorem evolution_fits : forall k d delta_t t, fits_operator k d t -> 0 < d ->
    exists (pos : list nat -> nat) (H : matrix),
      numbers_spins k d pos /\
      (forall ins outs, site_spins k d ins -> site_spins k d outs -> H (pos ins) (pos outs) = rmul (ropp delta_t) (operator_element k t ins outs)) /\
      forall (lg : Z) (V : matrix), let scaled := mscale (rdiv rone (of_int (2 ^ Z.of_nat (Z.to_nat (1 + lg))))) H in
      solves gesv (d ^ k) -> (forall l, lists (d ^ k) l H -> trunc_log2 (Spec.Matrix.largest real_lt real_zero (map rabs l)) = Some lg) -> (- 2 ^ 31 <= lg < 30)%Z ->
      inverse (d ^ k) V (pade_polynomial (d ^ k) of_int 8 (mopp scaled)) ->
      exists U, evolution E gesv no_name X1 X2 k delta_t t = Ok U /\ fits_operator k d U /\
        forall ins outs, site_spins k d ins -> site_spins k d outs ->
          operator_element k U ins outs = mpow (d ^ k) (mmul (d ^ k) V (pade_polynomial (d ^ k) of_int 8 scaled)) (2 ^ Z.to_nat (1 + lg)) (pos ins) (pos outs).
  Proof.
    intros k d delta_t t F Hd. destruct (scaled_fits k d (rmul (ropp delta_t)) t F) as [x [Ex [Fx Vx]]].
    destruct (exponential_fits k d x 8 Fx Hd ltac:(lia)) as [pos [H [A1 [A4 A5]]]]. exists pos, H. split; [exact A1|].
    split; [intros ins outs H1 H2; now rewrite A4, Vx|]. intros lg V scaled Sol Lg Rg Inv. unfold evolution. rewrite Ex. cbn [bind]. exact (A5 lg V Sol Lg Rg Inv).
  Qed.
End Evolution.
