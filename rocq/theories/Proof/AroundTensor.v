(** The three lines around a line of the lattice, and the sums the contractions of a strip give. *)
From Coq Require Import String Ascii List Bool Arith Lia Permutation Ring Setoid Morphisms.
From Verif Require Import Base.Outcome Base.SMap Model.Symmetry Model.Edge Model.Core Model.EdgeOperator Model.Contract Model.Misc Model.Qr Model.Svd Model.Auxiliaries
  Spec.Blocks Spec.Relabel Spec.Contract Spec.Plain Spec.Lapack Spec.Grid Spec.SquareLattice Spec.Factor Spec.Truncate Spec.Spectrum Spec.Svd Proof.LoopFacts Proof.SumFacts Proof.CoreFacts Proof.ElemFacts Proof.PlainFacts Proof.PlainTools Proof.SumBonds Proof.LineMath Proof.LineTensor Proof.StripTensor Proof.StripFold Proof.StripAmp Proof.StackTensor.
Import ListNotations.

Section AroundTensor.
  Context {R V : Type} {RR : Scalar R}.
  Notation tens := (tensor unit R).
  Notation triple := (tens * tens * tens)%type.
  Implicit Types t : tens.
  Hypotheses (EA : exact_arithmetic R) (MA : associative_product R) (MD : distributive_product R).
  Variables (E : @env R) (J : internal).
  Hypothesis HJ : NoDup [i_contract_0 J; i_contract_1 J; i_contract_2 J].
  Variables (Iq : qr_names) (Is : svd_names) (L : qr_lapack R).
  Hypotheses (HN : own_names Iq Is) (HL : qr_sound L).
  Variables (gesvd : nat -> nat -> list R -> bool * (list V * list R * list R)) (vzero vjunk : V) (greater : V -> V -> bool) (of_real : V -> R).
  Hypotheses (HS : svd_sound of_real vzero greater gesvd) (HO : strict_order greater).
  Notation "x *r y" := (rmul x y) (at level 40, left associativity).
  Add Ring scalars6 : (semi_ring EA MA MD).
  Notation fine := (fine L gesvd).
  Notation stack F cut := (stack E J Iq Is L gesvd vzero vjunk greater of_real (fup F) (fdown F) (fleft F) (fright F) cut).
  Notation one3 := (fun _ _ _ : nat => rone).

  Definition zip3 (a s c : list tens) : list triple := combine (combine a s) c.
  Definition with_middle (cols : list triple) (s : list tens) : list triple := map (fun p => (fst (fst (fst p)), snd p, snd (fst p))) (combine cols s).
  Lemma with_middle_zip : forall a s c s', length a = length s -> length s = length c -> with_middle (zip3 a s c) s' = zip3 a s' c \/ length s' <> length s.
  Proof.
    unfold with_middle, zip3. induction a as [|x a IH]; intros [|y s] [|z c] s' H1 H2; try discriminate; cbn [combine map].
    - destruct s'; [left; reflexivity|right; cbn; lia].
    - destruct s' as [|w s']; [right; cbn; lia|]. cbn [combine map fst snd]. destruct (IH s c s') as [->|D]; [now injection H1|now injection H2|left; reflexivity|right; cbn; lia].
  Qed.
  Lemma at3_ok : forall a s c n, length a = n -> length s = n -> length c = n -> mapM (at3 a s c) (seq 0 n) = Ok (zip3 a s c).
  Proof.
    assert (G : forall n a s c a0 s0 c0, length a = n -> length s = n -> length c = n -> length a0 = length s0 -> length s0 = length c0 ->
      mapM (at3 (a0 ++ a) (s0 ++ s) (c0 ++ c)) (seq (length a0) n) = Ok (zip3 a s c)).
    { induction n as [|n IH]; intros [|x a] [|y s] [|z c] a0 s0 c0 A B C D F; try discriminate; [reflexivity|]. cbn [seq mapM].
      unfold at3 at 1. rewrite nth_error_mid. replace (nth_error (s0 ++ y :: s) (length a0)) with (Some y) by (rewrite D; symmetry; apply nth_error_mid).
      replace (nth_error (c0 ++ z :: c) (length a0)) with (Some z) by (rewrite D, F; symmetry; apply nth_error_mid). cbn [get_or_ub bind].
      specialize (IH a s c (a0 ++ [x]) (s0 ++ [y]) (c0 ++ [z])). rewrite <- !app_assoc, !app_length in IH. cbn [app length] in IH. rewrite Nat.add_1_r in IH.
      rewrite IH; [reflexivity| | | | |]; try (now injection A); try (now injection B); try (now injection C); lia. }
    intros a s c n A B C. apply (G n a s c [] [] []); auto.
  Qed.
  Lemma zip3_cols : forall F a s c x y z ds es, line F x a (nones ds) ds -> line F y s ds es -> line F z c es (nones es) -> cols_ok F x y z (zip3 a s c) ds es None None None.
  Proof.
    intros F. unfold zip3. induction a as [|p a IH]; intros s c x y z ds es Ha Hs Hc; destruct ds as [|d ds]; cbn [line nones map] in Ha; try contradiction.
    - destruct s as [|q s], es as [|e es]; cbn [line] in Hs; try contradiction. destruct c; cbn [line nones map] in Hc; [|contradiction]. cbn. auto.
    - destruct s as [|q s], es as [|e es]; cbn [line] in Hs; try contradiction. destruct c as [|r c]; cbn [line nones map] in Hc; [contradiction|].
      destruct Ha as [x1 [Ha1 Ha2]], Hs as [y1 [Hs1 Hs2]], Hc as [z1 [Hc1 Hc2]]. cbn [combine cols_ok]. exists x1, y1, z1. split; [exact Ha1|]. split; [exact Hs1|]. split; [exact Hc1|]. now apply IH.
  Qed.
  Lemma zip3_FV : forall F a s c x y z ds es, line F x a (nones ds) ds -> line F y s ds es -> line F z c es (nones es) ->
    map dx (map (col_of F) (zip3 a s c)) = sizes ds /\ map dy (map (col_of F) (zip3 a s c)) = sizes es /\
    map (fun k => (ca k, da k)) (map (col_of F) (zip3 a s c)) = map (site_of F) a /\ map (fun k => (cs k, db k)) (map (col_of F) (zip3 a s c)) = map (site_of F) s /\
    map (fun k => (cc k, dc k)) (map (col_of F) (zip3 a s c)) = map (site_of F) c.
  Proof.
    intros F. unfold zip3. induction a as [|p a IH]; intros s c x y z ds es Ha Hs Hc; destruct ds as [|d ds]; cbn [line nones map] in Ha; try contradiction.
    - destruct s as [|q s], es as [|e es]; cbn [line] in Hs; try contradiction. destruct c; cbn [line nones map] in Hc; [|contradiction]. cbn. auto.
    - destruct s as [|q s], es as [|e es]; cbn [line] in Hs; try contradiction. destruct c as [|r c]; cbn [line nones map] in Hc; [contradiction|].
      destruct Ha as [x1 [Ha1 Ha2]], Hs as [y1 [Hs1 Hs2]], Hc as [z1 [Hc1 Hc2]]. destruct (IH s c x1 y1 z1 ds es Ha2 Hs2 Hc2) as [I1 [I2 [I3 [I4 I5]]]].
      cbn [combine map sizes]. rewrite I1, I2, I3, I4, I5. rewrite (col_of_ok F p q r d e x x1 y y1 z z1 Ha1 Hs1 Hc1). cbn [ca cs cc da db dc dx dy].
      replace (site_of F p) with (sf F p, size x1) by (unfold site_of; now rewrite (dim_right F p _ _ _ _ Ha1)).
      replace (site_of F q) with (sf F q, size y1) by (unfold site_of; now rewrite (dim_right F q _ _ _ _ Hs1)).
      replace (site_of F r) with (sf F r, size z1) by (unfold site_of; now rewrite (dim_right F r _ _ _ _ Hc1)). auto.
  Qed.
  Lemma Sums_ones : forall n (f : list nat -> R), Sums (sizes (repeat None n)) f = f (repeat 0 n).
  Proof. induction n as [|n IH]; intro f; [reflexivity|]. cbn [repeat sizes map Sums size]. rewrite (Sum_1 EA). exact (IH (fun l => f (0 :: l))). Qed.
  Lemma nones_repeat : forall n, nones (repeat None n) = repeat None n.
  Proof. induction n as [|n IH]; cbn; [reflexivity|]. now f_equal. Qed.

    Lemma rows_length : forall F (ls : list (list tens)) us vs m, rows F us ls vs -> length us = m -> Forall (fun v => length v = m) vs /\ length ls = length vs.
    Proof.
      intro F. induction ls as [|l ls IH]; intros us vs m H Hu; destruct vs as [|d vs]; cbn [rows] in H; try contradiction; [split; [constructor|reflexivity]|].
      destruct H as [A B]. destruct (line_length _ _ _ _ _ A). destruct (IH d vs m B) as [I1 I2]; [lia|]. split; [constructor; [lia|exact I1]|cbn; lia].
    Qed.
    Lemma last_length : forall us vs m, Forall (fun v : list (option nat) => length v = m) vs -> length us = m -> length (last vs us) = m.
    Proof. induction vs as [|v vs IH]; intros m H Hu; [exact Hu|]. inversion H as [|? ? Hv Hvs]; subst. destruct vs; [exact Hv|]. exact (IH (length us) Hvs eq_refl). Qed.

  Definition around (F : frame) (cut n : nat) (ls1 : list (list tens)) (l : list tens) (ls2 : list (list tens)) : res (list triple * bool) :=
    bindw (stack F cut (repeat unit_tensor n) ls1) (fun a => bindw (quiet (Ok l)) (fun s => bindw (stack (upside F) cut (repeat unit_tensor n) (rev ls2)) (fun c => quiet (mapM (at3 a s c) (seq 0 n))))).

  Section Around.
    Variables (F : frame) (cut n : nat) (ls1 ls2 : list (list tens)) (l : list tens) (vs1 vs2 : list (list (option nat))) (es : list (option nat)).
    Notation ds := (last vs1 (repeat None n)).
    Hypotheses (Hn : 0 < n) (H1 : rows F (repeat None n) ls1 vs1) (Hl : line F None l ds es) (H2 : rows F es ls2 vs2) (He : last vs2 es = repeat None n)
      (C1 : Forall (enough cut) vs1) (C2 : Forall (enough cut) (es :: vs2)).

    Theorem around_ok : fine (around F cut n ls1 l ls2)
      (fun cols => exists a c, cols = zip3 a l c /\ length a = length l /\ length l = length c /\ line F None a (nones ds) ds /\ line F None c es (nones es))
      (fun cols => forall s, line F None s ds es -> FV (map (col_of F) (with_middle cols s)) one3 0 0 0 = ZV F (ls1 ++ s :: ls2) (vs1 ++ es :: vs2) (fun _ => rone) (repeat 0 n)).
    Proof.
      assert (Hn' : repeat (@None nat) n <> []) by (destruct n; [lia|discriminate]).
      assert (Lds : length ds = n) by (apply last_length; [apply (rows_length F ls1 (repeat None n)); [exact H1|apply repeat_length]|apply repeat_length]).
      destruct (line_length _ _ _ _ _ Hl) as [L1 L2].
      assert (Hes : es <> []) by (intro; subst es; cbn in L2; lia).
      unfold around. eapply fine_bind.
      { apply (top_ok EA MA MD E J HJ Iq Is L HN HL gesvd vzero vjunk greater of_real HS HO F cut ls1 (repeat unit_tensor n) (repeat None n) vs1 Hn'); [|exact H1|exact C1].
        rewrite nones_repeat. apply units_line. }
      intros a Ha. eapply fine_bind; [eapply fine_ok with (P := fun s => s = l) (Q := fun _ => True); reflexivity|]. intros s ->. eapply fine_bind.
      { apply (bottom_ok EA MA MD E J HJ Iq Is L HN HL gesvd vzero vjunk greater of_real HS HO F cut ls2 (repeat unit_tensor n) es vs2 Hes H2); [|exact C2].
        rewrite He, nones_repeat. apply units_line. }
      intros c Hc. apply up_line in Hc. replace (upside (upside F)) with F in Hc by (now destruct F).
      destruct (line_length _ _ _ _ _ Ha) as [LA1 LA2]. destruct (line_length _ _ _ _ _ Hc) as [LC1 LC2].
      apply fine_ok with (a := zip3 a l c); [apply at3_ok; lia| |].
      - exists a, c. split; [reflexivity|]. split; [lia|]. split; [lia|]. split; [exact Ha|exact Hc].
      - intros HC _ HA s Hs. destruct (line_length _ _ _ _ _ Hs) as [LS1 LS2].
        destruct (with_middle_zip a l c s) as [->|D]; [lia|lia| |lia].
        destruct (zip3_FV F a s c None None None ds es Ha Hs Hc) as [Z1 [Z2 [Z3 [Z4 Z5]]]]. rewrite (three_lines EA MA MD), Z1, Z2, Z3, Z4, Z5.
        rewrite ZV_app by (apply (rows_length F ls1 (repeat None n) vs1 n H1), repeat_length). specialize (HA (fun xs => ZV F (s :: ls2) (es :: vs2) (fun _ => rone) xs)).
        rewrite Sums_ones, units_value in HA by assumption. rewrite (ea_mul_1 R) in HA by assumption. refine (eq_trans _ HA). clear HA.
        apply Sums_ext. intros xs Hxs. rewrite <- (Sums_mul_l EA MD). apply (f_equal2 rmul); [reflexivity|]. cbn [ZV]. apply Sums_ext. intros ys Hys. apply (f_equal2 rmul); [reflexivity|].
        change (lineval F c 0 ys [] = ZV F ls2 vs2 (fun _ => rone) ys). rewrite <- (up_lineval F c None _ _ 0 ys [] Hc), (HC ys Hys).
        apply (ZV_ext F ls2 vs2 es); [exact H2|exact Hys|]. intros zs _. now apply units_value.
    Qed.
  End Around.
End AroundTensor.
