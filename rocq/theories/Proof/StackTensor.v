(** Lines taken in one after the other from above and from below; the three lines around a line of the lattice. *)
From Coq Require Import String Ascii List Bool Arith Lia Permutation Ring Setoid Morphisms.
From Verif Require Import Base.Outcome Base.SMap Model.Symmetry Model.Edge Model.Core Model.EdgeOperator Model.Contract Model.Misc Model.Qr Model.Svd Model.Auxiliaries
  Spec.Blocks Spec.Relabel Spec.Contract Spec.Plain Spec.Lapack Spec.Grid Spec.SquareLattice Spec.Factor Spec.Truncate Spec.Spectrum Spec.Svd Proof.LoopFacts Proof.SumFacts Proof.CoreFacts Proof.ElemFacts Proof.PlainFacts Proof.PlainTools Proof.SumBonds Proof.LineMath Proof.LineTensor Proof.StripTensor Proof.StripFold Proof.StripAmp.
Import ListNotations.

(** the lines taken from the other side *)
Definition upside (F : frame) : frame := match F with Fu => Fd | Fd => Fu | Fl => Fr | Fr => Fl end.

Section StackTensor.
  Context {R V : Type} {RR : Scalar R}.
  Notation tens := (tensor unit R).
  Notation triple := (tens * tens * tens)%type.
  Implicit Types t : tens.
  Hypotheses (EA : exact_arithmetic R) (MA : associative_product R) (MD : distributive_product R).
  Variables (E : @env R) (J : internal).
  Hypothesis HJ : NoDup [i_contract_0 J; i_contract_1 J; i_contract_2 J].
  Variables (Iq : qr_names) (Is : svd_names) (L : qr_lapack R).
  Hypotheses (HN : own_names Iq Is) (HL : qr_sound L).
  Variables (gesvd : nat -> nat -> list R -> bool * (list V * list R * list R)) (vzero vjunk : V) (greater : V -> V -> bool) (of_real : V -> R).
  Hypotheses (HS : svd_sound of_real vzero greater gesvd) (HO : strict_order greater).
  Notation "x *r y" := (rmul x y) (at level 40, left associativity).
  Add Ring scalars5 : (semi_ring EA MA MD).
  Ltac shape := cbn; repeat constructor.
  Ltac look := cbn; repeat (constructor; [first [right; reflexivity | left; reflexivity | left; assumption]|]); try constructor.
  Notation fine := (fine L gesvd).
  Notation stack F cut := (stack E J Iq Is L gesvd vzero vjunk greater of_real (fup F) (fdown F) (fleft F) (fright F) cut).
  Notation two_lines F cut := (two_line_to_one_line E J Iq Is L gesvd vzero vjunk greater of_real (fup F) (fdown F) (fleft F) (fright F) cut).
  Notation one3 := (fun _ _ _ : nat => rone).

  (** ** turned lines *)
  Lemma up_has : forall F t u d l r, has t (sk F u d l r) -> has t (sk (upside F) d u l r).
  Proof. intros F t u d l r H. apply (has_same _ _ _ H). destruct F; shape. Qed.
  Lemma up_value : forall F t K u d l r, has t K -> sf (upside F) t d u l r = sf F t u d l r.
  Proof.
    intros F t K u d l r H. unfold sf, sa. apply (value_ext t K _ _ H). intros n _. unfold index.
    destruct F; cbn [upside fup fdown fleft fright]; unfold nm, code; cbn [mfind Nat.mul Nat.add]; destruct n as [|[|[|[|n]]]]; reflexivity.
  Qed.
  Lemma upside_right : forall F, fright (upside F) = fright F.
  Proof. now destruct F. Qed.
  Lemma up_line : forall F (ts : list tens) l us ds, line F l ts us ds -> line (upside F) l ts ds us.
  Proof.
    intros F. induction ts as [|t ts IH]; intros l us ds H; destruct us as [|u us], ds as [|d ds]; cbn [line] in *; try contradiction; auto.
    destruct H as [r [Ht H]]. exists r. split; [now apply up_has|now apply IH].
  Qed.
  Lemma up_lineval : forall F (ts : list tens) l us ds k xs ys, line F l ts us ds -> lineval (upside F) ts k ys xs = lineval F ts k xs ys.
  Proof.
    intros F. unfold lineval. induction ts as [|t ts IH]; intros l us ds k xs ys H; destruct us as [|u us], ds as [|d ds]; cbn [line] in *; try contradiction; auto.
    destruct H as [r [Ht H]]. cbn [map site_of LV]. rewrite upside_right. apply Sum_ext. intros i _. rewrite (up_value F t _ _ _ _ _ Ht). f_equal. exact (IH r us ds i _ _ H).
  Qed.

  (** ** the lines of a lattice: the edges above the first line, the edges below every line *)
  Fixpoint rows (F : frame) (us : list (option nat)) (ls : list (list tens)) (vs : list (list (option nat))) : Prop :=
    match ls, vs with
    | [], [] => True
    | l :: ls, d :: vs => line F None l us d /\ rows F d ls vs
    | _, _ => False
    end.
  Fixpoint ZV (F : frame) (ls : list (list tens)) (vs : list (list (option nat))) (K : list nat -> R) (xs : list nat) : R :=
    match ls, vs with
    | l :: ls, d :: vs => Sums (sizes d) (fun ys => lineval F l 0 xs ys *r ZV F ls vs K ys)
    | _, _ => K xs
    end.
  Lemma rows_app : forall F ls1 ls2 us vs, rows F us (ls1 ++ ls2) vs -> exists vs1 vs2, vs = vs1 ++ vs2 /\ rows F us ls1 vs1 /\ rows F (last vs1 us) ls2 vs2.
  Proof.
    intros F. induction ls1 as [|l ls1 IH]; intros ls2 us vs H.
    - exists [], vs. split; [reflexivity|]. split; [exact I|exact H].
    - destruct vs as [|d vs]; cbn [app rows] in H; [contradiction|]. destruct H as [H1 H2]. destruct (IH _ _ _ H2) as [vs1 [vs2 [-> [I1 I2]]]].
      exists (d :: vs1), vs2. split; [reflexivity|]. split; [now split|]. replace (last (d :: vs1) us) with (last vs1 d); [exact I2|].
      clear. revert d. induction vs1 as [|v vs1 IH]; intro d; [reflexivity|]. cbn [last]. destruct vs1; [reflexivity|]. exact (IH d).
  Qed.
  Lemma ZV_app : forall F ls1 vs1 ls2 vs2 K xs, length ls1 = length vs1 -> ZV F (ls1 ++ ls2) (vs1 ++ vs2) K xs = ZV F ls1 vs1 (ZV F ls2 vs2 K) xs.
  Proof.
    intros F. induction ls1 as [|l ls1 IH]; intros vs1 ls2 vs2 K xs H; destruct vs1 as [|d vs1]; try discriminate H; [reflexivity|].
    cbn [app ZV]. apply Sums_ext. intros ys _. f_equal. apply IH. now injection H.
  Qed.
  Lemma ZV_ext : forall F ls vs us K K' xs, rows F us ls vs -> Forall2 lt xs (sizes us) -> (forall ys, Forall2 lt ys (sizes (last vs us)) -> K ys = K' ys) -> ZV F ls vs K xs = ZV F ls vs K' xs.
  Proof.
    intros F. induction ls as [|l ls IH]; intros vs us K K' xs H Hx HK; destruct vs as [|d vs]; cbn [rows] in H; try contradiction.
    - now apply HK.
    - destruct H as [H1 H2]. cbn [ZV]. apply Sums_ext. intros ys Hy. f_equal. apply (IH vs d K K' ys H2 Hy). intros zs Hz. apply HK.
      replace (last (d :: vs) us) with (last vs d); [exact Hz|]. clear. revert d. induction vs as [|v vs IH]; intro d; [reflexivity|]. cbn [last]. destruct vs; [reflexivity|]. exact (IH d).
  Qed.

  Lemma stack_app : forall F cut ls1 ls2 l, stack F cut l (ls1 ++ ls2) = bindw (stack F cut l ls1) (fun x => stack F cut x ls2).
  Proof.
    intros F cut. induction ls1 as [|l1 ls1 IH]; intros ls2 l.
    - cbn [app Auxiliaries.stack]. unfold bindw. cbn [bind fst snd]. destruct (stack F cut l ls2) as [[x w]| | |]; reflexivity.
    - cbn [app Auxiliaries.stack]. unfold bindw at 1 2 3. destruct (two_lines F cut l l1) as [[x w]| | |]; cbn [bind fst snd]; [|reflexivity|reflexivity|reflexivity].
      rewrite IH. unfold bindw. destruct (stack F cut x ls1) as [[y v]| | |]; cbn [bind fst snd]; [|reflexivity|reflexivity|reflexivity].
      destruct (stack F cut y ls2) as [[z u]| | |]; cbn [bind fst snd]; [|reflexivity|reflexivity|reflexivity]. now rewrite orb_assoc.
  Qed.
  Lemma fine_done : forall (A : Type) (a : A) (P Q : A -> Prop), P a -> Q a -> fine (Ok (a, false)) P Q.
  Proof. intros A a P Q HP HQ. right. exists a, false. repeat split; auto. discriminate. Qed.

  (** from above *)
  Theorem top_ok : forall F cut ls A us vs, us <> [] -> line F None A (nones us) us -> rows F us ls vs -> Forall (enough cut) vs ->
    fine (stack F cut A ls) (fun l => line F None l (nones (last vs us)) (last vs us))
      (fun l => forall K, Sums (sizes (last vs us)) (fun ys => lineval F l 0 [] ys *r K ys) = Sums (sizes us) (fun xs => lineval F A 0 [] xs *r ZV F ls vs K xs)).
  Proof.
    intros F cut. induction ls as [|l ls IH]; intros A us vs Hu HA H HC; destruct vs as [|d vs]; cbn [rows] in H; try contradiction.
    - apply fine_done; [exact HA|]. intro K. reflexivity.
    - destruct H as [H1 H2]. inversion HC as [|? ? HC1 HC2]; subst. cbn [Auxiliaries.stack].
      replace (last (d :: vs) us) with (last vs d).
      2: { clear. revert d. induction vs as [|v vs IH]; intro d; [reflexivity|]. cbn [last]. destruct vs; [reflexivity|]. exact (IH d). }
      eapply fine_bind; [exact (two_lines_ok EA MA MD E J HJ Iq Is L HN HL gesvd vzero vjunk greater of_real HS HO F cut A l us d Hu HA H1 HC1)|].
      intros x Hx. assert (Hd : d <> []).
      { destruct (line_length _ _ _ _ _ H1) as [A1 A2]. intro. subst d. destruct us; [now apply Hu|]. cbn in A1, A2. lia. }
      eapply fine_weaken; [exact (IH x d vs Hd Hx H2 HC2)|auto|]. intros y Hy HQ Hx' K. rewrite HQ. cbn [ZV].
      transitivity (Sums (sizes d) (fun ys => Sums (sizes us) (fun xs => lineval F A 0 [] xs *r (lineval F l 0 xs ys *r ZV F ls vs K ys)))).
      + apply Sums_ext. intros ys Hys. rewrite (Hx' ys Hys). rewrite (Sums_mul_r EA MD). apply Sums_ext. intros xs _. symmetry. ring.
      + rewrite (Sums_Sums EA). apply Sums_ext. intros xs _. now rewrite (Sums_mul_l EA MD).
  Qed.
  (** from below *)
  Theorem bottom_ok : forall F cut ls B us vs, us <> [] -> rows F us ls vs -> line (upside F) None B (nones (last vs us)) (last vs us) -> Forall (enough cut) (us :: vs) ->
    fine (stack (upside F) cut B (rev ls)) (fun l => line (upside F) None l (nones us) us)
      (fun l => forall xs, Forall2 lt xs (sizes us) -> lineval (upside F) l 0 [] xs = ZV F ls vs (fun ys => lineval (upside F) B 0 [] ys) xs).
  Proof.
    intros F cut. induction ls as [|l ls IH]; intros B us vs Hu H HB HC; destruct vs as [|d vs]; cbn [rows] in H; try contradiction.
    - apply fine_done; [exact HB|]. intros xs _. reflexivity.
    - destruct H as [H1 H2]. inversion HC as [|? ? HC1 HC2]; subst. cbn [rev]. rewrite stack_app.
      assert (Hd : d <> []).
      { destruct (line_length _ _ _ _ _ H1) as [A1 A2]. intro. subst d. destruct us; [now apply Hu|]. cbn in A1, A2. lia. }
      assert (HB' : line (upside F) None B (nones (last vs d)) (last vs d)).
      { revert HB. replace (last (d :: vs) us) with (last vs d); [auto|]. clear. revert d. induction vs as [|v vs IH]; intro d; [reflexivity|]. cbn [last]. destruct vs; [reflexivity|]. exact (IH d). }
      eapply fine_bind; [exact (IH B d vs Hd H2 HB' HC2)|]. intros x Hx. cbn [Auxiliaries.stack].
      eapply fine_bind; [exact (two_lines_ok EA MA MD E J HJ Iq Is L HN HL gesvd vzero vjunk greater of_real HS HO (upside F) cut x l d us Hd Hx (up_line _ _ _ _ _ H1) HC1)|].
      intros y Hy. apply fine_done; [exact Hy|]. intros HQ HQ' xs Hxs. rewrite (HQ xs Hxs). cbn [ZV]. apply Sums_ext. intros ys Hys. rewrite (HQ' ys Hys).
      rewrite (up_lineval F l _ _ _ 0 xs ys H1). ring.
  Qed.
  (** lines of ones *)
  Lemma units_line : forall F n, line F None (repeat unit_tensor n) (repeat None n) (repeat None n).
  Proof. intros F n. induction n as [|n IH]; [reflexivity|]. exists None. split; [|exact IH]. apply (has_same _ _ _ unit_has). destruct F; shape. Qed.
  Lemma units_value : forall F n k xs ys, lineval F (repeat unit_tensor n) k xs ys = rone.
  Proof.
    intros F. unfold lineval. induction n as [|n IH]; intros k xs ys; [reflexivity|]. cbn [repeat map site_of LV].
    change (size (dimension unit_tensor (nm (fright F) 0))) with 1. rewrite (Sum_1 EA), IH. unfold sf. rewrite unit_value. ring.
  Qed.
End StackTensor.
