(** The gradient accumulated over samples. *)
From Coq Require Import String Ascii List Bool Arith ZArith Lia Permutation.
From Verif Require Import Base.Outcome Base.SMap Model.Symmetry Model.Edge Model.Core Model.EdgeOperator Model.Elementwise Model.Contract Model.Misc Model.ShrinkExpand Model.Qr Model.Svd Model.Auxiliaries Model.Spins
  Spec.Blocks Spec.Relabel Spec.Contract Spec.Plain Spec.Lapack Spec.Grid Spec.SquareLattice Spec.SpinLattice Spec.Factor Spec.Truncate Spec.Spectrum Spec.Svd Proof.LoopFacts Proof.SumFacts Proof.CoreFacts Proof.ElemFacts Proof.ConstructFacts Proof.PlainFacts Proof.PlainTools Proof.PlainElem Proof.SumBonds Proof.GridSum Proof.LineTensor Proof.StackTensor Proof.LatticeAmplitude Proof.SpinFacts Proof.SpinAmplitude.
Import ListNotations.

Section Gradient.
  Context {R V : Type} {RR : Scalar R}.
  Notation tens := (tensor unit R).
  Hypotheses (EA : exact_arithmetic R) (MA : associative_product R) (MD : distributive_product R).
  Variables (E : @env R) (J : internal) (Iq : qr_names) (Is : svd_names) (L : qr_lapack R).
  Variables (gesvd : nat -> nat -> list R -> bool * (list V * list R * list R)) (vzero vjunk : V) (greater : V -> V -> bool) (of_real : V -> R).
  Hypotheses (HJ : NoDup [i_contract_0 J; i_contract_1 J; i_contract_2 J]) (HN : own_names Iq Is) (HL : qr_sound L) (HS : svd_sound of_real vzero greater gesvd) (HO : strict_order greater).
  Variables (M N cut d : nat) (dim : bond -> nat).
  Hypotheses (Hcut : 0 < cut).
  Variables (real : bool) (of_nat : nat -> R).
  Implicit Types t x e : tens.
  Notation is_cut := (is_cut M N dim).
  Notation state_is := (state_is M N d dim).
  Notation current := (kept M N dim (fun _ _ => False)).
  Notation in_site := (in_site M N dim).
  Notation site_slots := (site_slots M N dim).
  Notation spin_slots := (spin_slots M N d dim).
  Notation fine := (fine L gesvd).

  (** ** a tensor that is one at one place *)
  Lemma delta_edge : forall t K p i, has t K -> i < size (slot K p) ->
    exists r, has r K /\ forall a, in_slots K a -> index a p < size (slot K p) -> value r a = if Nat.eqb (index a p) i then value t ((p, 0) :: a) else rzero.
  Proof.
    intros t K p i Ht Hi. destruct (slot K p) as [k|] eqn:S0.
    - cbn [size] in Hi. destruct (shrink_has EA E J HJ t K p k 0 Ht S0 ltac:(lia)) as [x [_ [X2 X3]]].
      assert (S1 : slot (without [p] K) p = None) by (rewrite slot_without; unfold member; cbn [existsb]; rewrite Nat.eqb_refl; reflexivity).
      destruct (expand_has EA E J HJ x (without [p] K) p k i X2 S1 Hi) as [r [_ [Y2 Y3]]].
      assert (SK : forall n, slot ((p, Some k) :: without [p] K) n = slot K n).
      { intro n. change (slot ([(p, Some k)] ++ without [p] K) n = slot K n). rewrite slot_app. cbn [mfind]. destruct (Nat.eqb_spec n p) as [->|Q].
        - now rewrite eqb_refl, S0.
        - rewrite (neqb _ _ Q), slot_without. unfold member. cbn [existsb]. apply Nat.eqb_neq in Q. now rewrite Q. }
      exists r. split; [exact (has_ext _ _ _ Y2 SK)|]. intros a Ha _.
      assert (Ha' : in_slots ((p, Some k) :: without [p] K) a) by (intro n; rewrite SK; apply Ha). rewrite (Y3 a Ha'). destruct (Nat.eqb (index a p) i); [|reflexivity].
      apply X3. intro n. rewrite slot_without. destruct (member n [p]); [now right|apply Ha].
    - exists t. split; [exact Ht|]. intros a _ Ha. cbn [size] in Hi, Ha. replace (Nat.eqb (index a p) i) with true by (symmetry; apply Nat.eqb_eq; lia).
      apply (value_ext t K); [exact Ht|]. intros n Hn. rewrite index_cons. destruct (Nat.eqb_spec n p) as [->|]; [congruence|reflexivity].
  Qed.
  Lemma unit_exists : forall i j t u v l r, fits_site M N dim i j t -> in_site i j u v l r ->
    exists x, fits_site M N dim i j x /\ forall u' v' l' r', in_site i j u' v' l' r' -> elements x u' v' l' r' = unit_site u v l r u' v' l' r'.
  Proof.
    intros i j t u v l r F H. apply fits_site_has in F. destruct (slot_sizes M N dim i j) as [S1 [S2 [S3 S4]]]. pose proof H as [H1 [H2 [H3 H4]]]. rewrite <- S1 in H1. rewrite <- S2 in H2. rewrite <- S3 in H3. rewrite <- S4 in H4.
    destruct (number_has E (fun _ => rone) t _ F) as [x0 [_ [X0 V0]]].
    destruct (delta_edge x0 _ (nm Up 0) u X0 H1) as [x1 [X1 V1]]. destruct (delta_edge x1 _ (nm Down 0) v X1 H2) as [x2 [X2 V2]].
    destruct (delta_edge x2 _ (nm Lft 0) l X2 H3) as [x3 [X3 V3]]. destruct (delta_edge x3 _ (nm Rgt 0) r X3 H4) as [x4 [X4 V4]].
    exists x4. split; [now apply fits_site_has|]. intros u' v' l' r' H'. pose proof H' as [K1 [K2 [K3 K4]]]. rewrite <- S1 in K1. rewrite <- S2 in K2. rewrite <- S3 in K3. rewrite <- S4 in K4. unfold elements, unit_site.
    assert (Sl : forall u0 v0 l0 r0 b, u0 < size (up_slot dim i j) -> v0 < size (down_slot M dim i j) -> l0 < size (left_slot dim i j) -> r0 < size (right_slot N dim i j) ->
      index b (nm Up 0) = u0 -> index b (nm Down 0) = v0 -> index b (nm Lft 0) = l0 -> index b (nm Rgt 0) = r0 -> in_slots (site_slots i j) b).
    { intros u0 v0 l0 r0 b B1 B2 B3 B4 <- <- <- <-. apply in_slots_all. cbn [keys SpinFacts.site_slots map fst]. repeat apply Forall_cons; [left|left|left|left|apply Forall_nil]; assumption. }
    assert (Z0 : 0 < size (up_slot dim i j) /\ 0 < size (down_slot M dim i j) /\ 0 < size (left_slot dim i j) /\ 0 < size (right_slot N dim i j)) by lia. destruct Z0 as [Z1 [Z2 [Z3 Z4]]].
    rewrite V4; [|eapply Sl; try reflexivity; assumption|exact K4]. change (index [(nm Up 0, u'); (nm Down 0, v'); (nm Lft 0, l'); (nm Rgt 0, r')] (nm Rgt 0)) with r'.
    destruct (Nat.eqb r' r); [|now rewrite andb_false_r]. rewrite andb_true_r.
    rewrite V3; [|eapply Sl; try reflexivity; assumption|exact K3].
    match goal with |- context [index ?b (nm Lft 0)] => change (index b (nm Lft 0)) with l' end. destruct (Nat.eqb l' l); [|now rewrite andb_false_r]. rewrite andb_true_r.
    rewrite V2; [|eapply Sl; try reflexivity; assumption|exact K2].
    match goal with |- context [index ?b (nm Down 0)] => change (index b (nm Down 0)) with v' end. destruct (Nat.eqb v' v); [|now rewrite andb_false_r]. rewrite andb_true_r.
    rewrite V1; [|eapply Sl; try reflexivity; assumption|exact K1].
    match goal with |- context [index ?b (nm Up 0)] => change (index b (nm Up 0)) with u' end. destruct (Nat.eqb u' u); [|reflexivity].
    apply V0. eapply Sl; try reflexivity; assumption.
  Qed.

  Lemma Sum_pick : forall n i (f : nat -> R), i < n -> (forall k, k < n -> k <> i -> f k = rzero) -> Sum n f = f i.
  Proof.
    intros n i f Hi Hz. unfold Sum. assert (G : forall m s, (s <= i < s + m -> (forall k, s <= k < s + m -> k <> i -> f k = rzero) -> rsum (map f (seq s m)) = f i) /\
      ((forall k, s <= k < s + m -> f k = rzero) -> rsum (map f (seq s m)) = rzero)).
    { induction m as [|m IH]; intro s; [split; [lia|reflexivity]|]. destruct (IH (S s)) as [I1 I2]. cbn [seq map rsum fold_right]. change (fold_right radd rzero (map f (seq (S s) m))) with (rsum (map f (seq (S s) m))). split.
      - intros Hs Hk. destruct (Nat.eq_dec s i) as [->|Q].
        + rewrite I2; [now rewrite (ea_add_comm R EA), (ea_add_0 R EA)|]. intros k Hk'. apply Hk; lia.
        + rewrite I1; [|lia|intros; apply Hk; lia]. rewrite (Hk s); [apply (ea_add_0 R EA)|lia|exact Q].
      - intro Hk. rewrite I2 by (intros; apply Hk; lia). rewrite Hk by lia. apply (ea_add_0 R EA). }
    apply (proj1 (G n 0)); [lia|]. intros k Hk. apply Hz. lia.
  Qed.
  Lemma put_unit : forall i j e x u v l r, in_site i j u v l r -> (forall u' v' l' r', in_site i j u' v' l' r' -> elements x u' v' l' r' = unit_site u v l r u' v' l' r') ->
    put_in M N dim i j e x = value e [(nm Up 4, u); (nm Down 4, v); (nm Lft 4, l); (nm Rgt 4, r)].
  Proof.
    intros i j e x u v l r [H1 [H2 [H3 H4]]] Hx. unfold put_in.
    assert (U : forall b c : bool, (if b && c then rone else rzero : R) = if b then if c then rone else rzero else rzero) by (intros [|] [|]; reflexivity).
    assert (Z0 : forall a : R, rmul a rzero = rzero) by (intro a; rewrite (ea_mul_comm R EA); apply (ea_mul_0 R EA)).
    assert (P : forall u' v' l' r', u' < size_up dim i j -> v' < size_down M dim i j -> l' < size_left dim i j -> r' < size_right N dim i j -> (u', v', l', r') <> (u, v, l, r) -> elements x u' v' l' r' = rzero).
    { intros u' v' l' r' K1 K2 K3 K4 Q. rewrite Hx by (repeat split; assumption). unfold unit_site. destruct (Nat.eqb_spec u' u) as [->|]; [|reflexivity]. destruct (Nat.eqb_spec v' v) as [->|]; [|reflexivity].
      destruct (Nat.eqb_spec l' l) as [->|]; [|reflexivity]. destruct (Nat.eqb_spec r' r) as [->|]; [congruence|reflexivity]. }
    assert (SZ : forall n (f : nat -> R), (forall k, k < n -> f k = rzero) -> Sum n f = rzero).
    { intros n f Hf. rewrite (Sum_ext n f (fun _ => rzero)) by exact Hf. apply (Sum_zero EA). }
    rewrite (Sum_pick _ u); [|exact H1|intros u' K1 Q; apply SZ; intros v' K2; apply SZ; intros l' K3; apply SZ; intros r' K4; rewrite P; [apply Z0| | | | |]; (assumption || congruence)].
    rewrite (Sum_pick _ v); [|exact H2|intros v' K2 Q; apply SZ; intros l' K3; apply SZ; intros r' K4; rewrite P; [apply Z0| | | | |]; (assumption || congruence)].
    rewrite (Sum_pick _ l); [|exact H3|intros l' K3 Q; apply SZ; intros r' K4; rewrite P; [apply Z0| | | | |]; (assumption || congruence)].
    rewrite (Sum_pick _ r); [|exact H4|intros r' K4 Q; rewrite P; [apply Z0| | | | |]; (assumption || congruence)].
    rewrite Hx by (repeat split; assumption). unfold unit_site. rewrite !Nat.eqb_refl. cbn [andb]. rewrite (ea_mul_comm R EA). apply (ea_mul_1 R EA).
  Qed.

  Lemma in_spin : forall i j p u v l r, p < d -> in_site i j u v l r -> in_slots (spin_slots i j) [(phys, p); (nm Up 0, u); (nm Down 0, v); (nm Lft 0, l); (nm Rgt 0, r)].
  Proof.
    intros i j p u v l r Hp [H1 [H2 [H3 H4]]]. destruct (slot_sizes M N dim i j) as [S1 [S2 [S3 S4]]]. rewrite <- S1 in H1. rewrite <- S2 in H2. rewrite <- S3 in H3. rewrite <- S4 in H4.
    apply in_slots_all. cbn [keys SpinFacts.spin_slots SpinFacts.site_slots map fst]. repeat apply Forall_cons; [left|left|left|left|left|apply Forall_nil]; assumption.
  Qed.
  Lemma in_phys : forall i j p u v l r, in_site i j u v l r -> in_slots (site_slots i j) [(phys, p); (nm Up 0, u); (nm Down 0, v); (nm Lft 0, l); (nm Rgt 0, r)].
  Proof.
    intros i j p u v l r [H1 [H2 [H3 H4]]]. destruct (slot_sizes M N dim i j) as [S1 [S2 [S3 S4]]]. rewrite <- S1 in H1. rewrite <- S2 in H2. rewrite <- S3 in H3. rewrite <- S4 in H4.
    apply in_slots_all. cbn [keys SpinFacts.site_slots map fst]. repeat apply Forall_cons; [left|left|left|left|apply Forall_nil]; assumption.
  Qed.

  (** ** the hole of one sample *)
  Definition hole_slots (i j : nat) : slots := [(nm Up 4, up_slot dim i j); (nm Down 4, down_slot M dim i j); (nm Lft 4, left_slot dim i j); (nm Rgt 4, right_slot N dim i j)].
  Lemma faces_has : forall i j t e, fits_site M N dim i j t -> faces t e -> has e (hole_slots i j).
  Proof.
    intros i j t e F [W [B [D O]]]. constructor; [exact W|exact B|]. intro n. destruct (in_dec Nat.eq_dec n [nm Up 4; nm Down 4; nm Lft 4; nm Rgt 4]) as [Hn|Hn].
    - destruct Hn as [<-|[<-|[<-|[<-|[]]]]]; rewrite D; apply F.
    - rewrite (not_listed e n [nm Up 4; nm Down 4; nm Lft 4; nm Rgt 4] W); [symmetry; apply slot_out; exact Hn| |exact Hn]. intros k Hk. destruct (O k Hk) as [[| | |] ->]; cbn [In]; tauto.
  Qed.
  Lemma hole_ok : forall st T sp cu i j ws, state_is st T sp cu -> current T sp cu -> (forall i j, i < M -> j < N -> sp i j <> (-1)%Z) -> rows_within M N dim cut -> i < M -> j < N ->
    fine (spin_hole E J Iq Is L gesvd vzero vjunk greater of_real M N cut real d (snd st) i j ws) (fun h => has h (spin_slots i j))
      (fun h => forall p u v l r, p < d -> in_site i j u v l r -> spin_elements h p u v l r = log_derivative real M N dim T sp ws i j p u v l r).
  Proof.
    intros st T sp cu i j ws S0 K Hs Hr Hi Hj. destruct (present_ok M N d dim st T sp cu S0 K Hs) as [site [P1 P2]]. unfold spin_hole. rewrite P1. cbn [bind environment].
    change (Ascii.eqb " " "v") with false. pose proof (fun i j Hi Hj => proj1 (P2 i j Hi Hj)) as P3.
    eapply fine_bind; [exact (environment_row EA MA MD E J Iq Is L gesvd vzero vjunk greater of_real HJ HN HL HS HO M N cut dim site P3 Hcut i j Hi Hj Hr)|].
    intros e He. pose proof (faces_has i j _ e (P3 i j Hi Hj) He) as E1.
    pose proof (rename_keys_has e _ [(nm Lft 4, nm Lft 0); (nm Rgt 4, nm Rgt 0); (nm Up 4, nm Up 0); (nm Down 4, nm Down 0)] E1 eq_refl) as E2.
    change (map _ (hole_slots i j)) with (site_slots i j) in E2.
    destruct (conjugate_has E real _ _ E2) as [x1 [X1 [X2 X3]]]. destruct (number_has E (fun y => rdiv y (conj real ws)) x1 _ X2) as [x2 [Y1 [Y2 Y3]]].
    assert (Sp : (0 <= sp i j < Z.of_nat d)%Z) by (pose proof (st_range _ _ _ _ _ _ _ _ S0 i j Hi Hj); pose proof (Hs i j Hi Hj); lia).
    destruct (expand_has EA E J HJ x2 (site_slots i j) phys d (Z.to_nat (sp i j)) Y2 eq_refl ltac:(lia)) as [h [Z1 [Z2 Z3]]].
    apply fine_ok with (a := h).
    - rewrite X1. cbn [bind]. rewrite Y1. cbn [bind]. rewrite (st_spin _ _ _ _ _ _ _ _ S0), cell_table by assumption. cbn [bind]. destruct (Z.ltb_spec (sp i j) 0) as [Q|_]; [lia|]. exact Z1.
    - exact Z2.
    - intros He2 p u v l r Hp Hin. unfold spin_elements. rewrite Z3.
      + change (index [(phys, p); (nm Up 0, u); (nm Down 0, v); (nm Lft 0, l); (nm Rgt 0, r)] phys) with p. unfold log_derivative.
        change (bar real) with (@conj R _ real). destruct (Nat.eqb_spec p (Z.to_nat (sp i j))) as [Q|Q].
        * replace (Z.eqb (sp i j) (Z.of_nat p)) with true by (symmetry; apply Z.eqb_eq; lia).
          assert (In' : in_slots (site_slots i j) [(phys, p); (nm Up 0, u); (nm Down 0, v); (nm Lft 0, l); (nm Rgt 0, r)]) by exact (in_phys i j p u v l r Hin).
          rewrite Y3 by exact In'. f_equal. rewrite X3 by exact In'. unfold conj. assert (W : value (edge_rename e [(nm Lft 4, nm Lft 0); (nm Rgt 4, nm Rgt 0); (nm Up 4, nm Up 0); (nm Down 4, nm Down 0)])
             [(phys, p); (nm Up 0, u); (nm Down 0, v); (nm Lft 0, l); (nm Rgt 0, r)] = psi_around M N dim T sp i j u v l r); [|now rewrite W].
          rewrite (rename_keys_value e _ [(nm Lft 4, nm Lft 0); (nm Rgt 4, nm Rgt 0); (nm Up 4, nm Up 0); (nm Down 4, nm Down 0)] _ [(nm Up 4, u); (nm Down 4, v); (nm Lft 4, l); (nm Rgt 4, r)] E1 eq_refl); [|cbn [keys hole_slots map fst]; repeat apply Forall_cons; [right|right|right|right|apply Forall_nil]; reflexivity].
          destruct (unit_exists i j (site i j) u v l r (P3 i j Hi Hj) Hin) as [x [F1 F2]]. rewrite <- (put_unit i j e x u v l r Hin F2), (He2 x F1). unfold psi_around. apply (network_ext_range M N dim EA). intros i' j' u' v' l' r' Hi' Hj' Hin'.
          unfold put_site. destruct (Nat.eqb_spec i' i) as [->|]; [destruct (Nat.eqb_spec j' j) as [->|]|]; cbn [andb]; [now apply F2| |]; now apply P2.
        * replace (Z.eqb (sp i j) (Z.of_nat p)) with false by (symmetry; apply Z.eqb_neq; lia). reflexivity.
      + exact (in_spin i j p u v l r Hp Hin).
  Qed.

  (** ** sums over the samples *)
  Lemma zero_has : forall t K, has t K -> exists r, same_shape (env_junk E) t = Ok r /\ has (zero_tensor r) K /\ forall a, in_slots K a -> value (zero_tensor r) a = rzero.
  Proof.
    intros t K H. destruct (same_shape_ok (env_junk E) t (h_wf _ _ H)) as [r [E1 [Wr [Hn [He _]]]]]. exists r. split; [exact E1|].
    assert (Hr : has r K) by (apply (same_edges_has t r K H Wr Hn); now rewrite He). exact (transform_has r K (fun _ => rzero) Hr).
  Qed.
  Definition holds (t : tens) (i j : nat) (f : nat -> nat -> nat -> nat -> nat -> R) : Prop := forall p u v l r, p < d -> in_site i j u v l r -> spin_elements t p u v l r = f p u v l r.
  Lemma add_hole_ok : forall i j Es acc h, has (fst acc) (spin_slots i j) -> has (snd acc) (spin_slots i j) -> has h (spin_slots i j) ->
    exists acc', add_hole E Es acc h = Ok acc' /\ has (fst acc') (spin_slots i j) /\ has (snd acc') (spin_slots i j) /\
      forall f g k, holds (fst acc) i j f -> holds (snd acc) i j g -> holds h i j k ->
        holds (fst acc') i j (fun p u v l r => radd (f p u v l r) (k p u v l r)) /\ holds (snd acc') i j (fun p u v l r => radd (g p u v l r) (rmul (k p u v l r) Es)).
  Proof.
    intros i j Es acc h H1 H2 H3. unfold add_hole. destruct (number_has E (fun y : R => rmul y Es) h _ H3) as [x [X1 [X2 X3]]]. rewrite X1. cbn [bind].
    destruct (inplace_has E radd (snd acc) x _ H2 X2) as [y [Y1 [Y2 Y3]]]. rewrite Y1. cbn [bind]. destruct (inplace_has E radd (fst acc) h _ H1 H3) as [z [Z1 [Z2 Z3]]]. rewrite Z1. cbn [bind].
    exists (z, y). split; [reflexivity|]. split; [exact Z2|]. split; [exact Y2|]. intros f g k Hf Hg Hk. split; intros p u v l r Hp Hin; pose proof (in_spin i j p u v l r Hp Hin) as Q; unfold spin_elements; cbn [fst snd].
    - rewrite Z3 by exact Q. f_equal; [now apply Hf|now apply Hk].
    - rewrite Y3 by exact Q. rewrite X3 by exact Q. f_equal; [now apply Hg|]. f_equal. now apply Hk.
  Qed.

  Variable T : nat -> nat -> tens.
  Definition reached (smp : @spins R * R * R) (sp : nat -> nat -> Z) : Prop :=
    exists owner cu, state_is (owner, fst (fst smp)) T sp cu /\ current T sp cu /\ forall i j, i < M -> j < N -> sp i j <> (-1)%Z.
  Notation O_of smp sp := (log_derivative real M N dim T sp (snd (fst smp))).
  Lemma samples_ok : forall i j, i < M -> j < N -> rows_within M N dim cut -> forall samples sps, Forall2 reached samples sps ->
    forall acc w, (w = true -> ~ svd_never_fails gesvd) -> has (fst acc) (spin_slots i j) -> has (snd acc) (spin_slots i j) ->
    fine (foldM (fun (aw : (tens * tens) * bool) smp => let '(c, ws, Es) := smp in
             bind (spin_hole E J Iq Is L gesvd vzero vjunk greater of_real M N cut real d c i j ws) (fun hw => bind (add_hole E Es (fst aw) (fst hw)) (fun acc' => Ok (acc', snd aw || snd hw))))
             samples (acc, w)) (fun acc' => has (fst acc') (spin_slots i j) /\ has (snd acc') (spin_slots i j))
      (fun acc' => forall f g, holds (fst acc) i j f -> holds (snd acc) i j g ->
         holds (fst acc') i j (fun p u v l r => radd (f p u v l r) (rsum (map (fun ss => O_of (fst ss) (snd ss) i j p u v l r) (combine samples sps)))) /\
         holds (snd acc') i j (fun p u v l r => radd (g p u v l r) (rsum (map (fun ss => rmul (O_of (fst ss) (snd ss) i j p u v l r) (snd (fst ss))) (combine samples sps))))).
  Proof.
    intros i j Hi Hj Hr samples sps HF. induction HF as [|smp sp samples sps Hs HF IH]; intros acc w Hw H1 H2.
    - cbn [foldM]. right. exists acc, w. split; [reflexivity|]. split; [exact Hw|]. split; [now split|]. intros _ f g Hf Hg. cbn [combine map rsum fold_right].
      split; intros p u v l r Hp Hin; rewrite (ea_add_comm R EA), (ea_add_0 R EA); [now apply Hf|now apply Hg].
    - cbn [foldM]. destruct smp as [[c ws] Es]. destruct Hs as [owner [cu [S0 [K Hs]]]]. cbn [fst snd] in S0.
      destruct (hole_ok (owner, c) T sp cu i j ws S0 K Hs Hr Hi Hj) as [[msg [Q1 Q2]]|[h [w' [Q1 [Q2 [Q3 Q4]]]]]]; cbn [snd] in Q1; rewrite Q1; [left; exists msg; now split|].
      cbn [bind fst snd]. destruct (add_hole_ok i j Es acc h H1 H2 Q3) as [acc' [A1 [A2 [A3 A4]]]]. rewrite A1. cbn [bind].
      destruct (IH acc' (w || w') ltac:(intro O; apply orb_true_iff in O as [O|O]; auto) A2 A3) as [B|[acc2 [w2 [B1 [B2 [B3 B4]]]]]]; [now left|]. right. exists acc2, w2. split; [exact B1|]. split; [exact B2|]. split; [exact B3|].
      intros W2 f g Hf Hg. assert (W' : w' = false).
      { clear - B1 W2. subst w2. assert (G : forall smps (F : (tens * tens) * bool -> @spins R * R * R -> res ((tens * tens) * bool)) a b, (forall a s b, F a s = Ok b -> snd a = true -> snd b = true) -> foldM F smps a = Ok b -> snd a = true -> snd b = true).
        { induction smps as [|s smps IH]; intros F a b HF H Ha; cbn [foldM] in H; [injection H as <-; exact Ha|]. destruct (F a s) as [a'| | |] eqn:Q; cbn [bind] in H; try discriminate. eapply IH; eauto. }
        destruct w'; [|reflexivity]. exfalso. apply G in B1; [cbn in B1; discriminate| |apply orb_true_r].
        intros a [[c' ws'] Es'] b Hb Ha. destruct (spin_hole E J Iq Is L gesvd vzero vjunk greater of_real M N cut real d c' i j ws') as [hw| | |]; cbn [bind] in Hb; try discriminate.
        destruct (add_hole E Es' (fst a) (fst hw)) as [x| | |]; cbn [bind] in Hb; try discriminate. injection Hb as <-. cbn. now rewrite Ha. }
      destruct (A4 f g _ Hf Hg (Q4 W')) as [A5 A6]. destruct (B4 W2 _ _ A5 A6) as [B5 B6]. cbn [combine map rsum fold_right fst snd].
      split; intros p u v l r Hp Hin; [rewrite (B5 p u v l r Hp Hin)|rewrite (B6 p u v l r Hp Hin)]; symmetry; apply (ea_add_assoc R EA).
  Qed.
  Lemma fold_rsum : forall (l : list R) a, fold_left radd l a = radd a (rsum l).
  Proof.
    induction l as [|x l IH]; intro a; cbn [fold_left rsum fold_right]; [now rewrite (ea_add_comm R EA), (ea_add_0 R EA)|]. rewrite IH. symmetry. apply (ea_add_assoc R EA).
  Qed.
  Theorem gradient_ok : forall i j samples sps, i < M -> j < N -> rows_within M N dim cut -> fits_spin M N dim d i j (T i j) -> Forall2 reached samples sps ->
    let n := of_nat (length samples) in
    unless_reported L gesvd (fun g => fits_spin M N dim d i j g /\ forall p u v l r, p < d -> in_site i j u v l r ->
        spin_elements g p u v l r =
        rsub (rmul (of_nat 2) (rdiv (rsum (map (fun ss => rmul (O_of (fst ss) (snd ss) i j p u v l r) (snd (fst ss))) (combine samples sps))) n))
             (rmul (rmul (of_nat 2) (rdiv (rsum (map snd samples)) n)) (rdiv (rsum (map (fun ss => O_of (fst ss) (snd ss) i j p u v l r) (combine samples sps))) n)))
      (gradient_at E J Iq Is L gesvd vzero vjunk greater of_real M N cut real of_nat d (table M N T) samples i j).
  Proof.
    intros i j samples sps Hi Hj Hr F HF n. eapply unless_weaken; [|apply (fine_unless L gesvd) with (P := fun g => fits_spin M N dim d i j g)]; [intros g H; exact H|]. unfold gradient_at. rewrite cell_table by assumption. cbn [bind]. apply fits_spin_has in F.
    eapply fine_bind with (P := fun acc => has (fst acc) (spin_slots i j) /\ has (snd acc) (spin_slots i j)) (Q := fun acc => holds (fst acc) i j (fun _ _ _ _ _ => rzero) /\ holds (snd acc) i j (fun _ _ _ _ _ => rzero)).
    { unfold no_holes. destruct (zero_has _ _ F) as [r [R1 [R2 R3]]]. apply fine_ok with (a := (zero_tensor r, zero_tensor r)).
      - rewrite R1. reflexivity.
      - split; exact R2.
      - split; intros p u v l r' Hp Hin; apply R3; now apply in_spin. }
    intros acc [A1 A2]. eapply fine_bind; [exact (samples_ok i j Hi Hj Hr samples sps HF acc false ltac:(discriminate) A1 A2)|].
    intros acc' [B1 B2]. unfold site_gradient. fold n.
    destruct (number_has E (fun y : R => rdiv y n) (snd acc') _ B2) as [a [a1 [a2 a3]]].
    destruct (number_has E (fun y : R => rmul (of_nat 2) y) a _ a2) as [b [b1 [b2 b3]]].
    destruct (number_has E (fun y : R => rdiv y n) (fst acc') _ B1) as [c [c1 [c2 c3]]].
    destruct (number_has E (fun y : R => rmul (rmul (of_nat 2) (rdiv (fold_left radd (map snd samples) rzero) n)) y) c _ c2) as [e [e1 [e2 e3]]].
    destruct (binary_has E rsub b e _ b2 e2) as [g [g1 [g2 g3]]].
    apply fine_ok with (a := g).
    - rewrite a1. cbn [bind]. rewrite b1. cbn [bind]. rewrite c1. cbn [bind]. rewrite e1. cbn [bind]. exact g1.
    - now apply fits_spin_has.
    - intros V1 [Z1 Z2] p u v l r Hp Hin. destruct (V1 _ _ Z1 Z2) as [V2 V3]. pose proof (in_spin i j p u v l r Hp Hin) as Q. unfold spin_elements. rewrite g3 by exact Q. rewrite b3 by exact Q. rewrite a3 by exact Q. rewrite e3 by exact Q. rewrite c3 by exact Q.
      change (value (snd acc') [(phys, p); (nm Up 0, u); (nm Down 0, v); (nm Lft 0, l); (nm Rgt 0, r)]) with (spin_elements (snd acc') p u v l r). change (value (fst acc') [(phys, p); (nm Up 0, u); (nm Down 0, v); (nm Lft 0, l); (nm Rgt 0, r)]) with (spin_elements (fst acc') p u v l r).
      rewrite (V2 p u v l r Hp Hin), (V3 p u v l r Hp Hin), fold_rsum, !(ea_add_0 R EA). reflexivity.
  Qed.
End Gradient.
