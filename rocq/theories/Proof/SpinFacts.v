(** Configurations of spins: the tensors kept are the ones cut at the spins. *)
From Coq Require Import String Ascii List Bool Arith ZArith Lia Permutation.
From Verif Require Import Base.Outcome Base.SMap Model.Symmetry Model.Edge Model.Core Model.EdgeOperator Model.Elementwise Model.Contract Model.Misc Model.ShrinkExpand Model.Qr Model.Svd Model.Auxiliaries Model.Spins
  Spec.Blocks Spec.Relabel Spec.Contract Spec.Plain Spec.Lapack Spec.Grid Spec.SquareLattice Spec.SpinLattice Spec.Factor Spec.Truncate Spec.Spectrum Spec.Svd Proof.LoopFacts Proof.SumFacts Proof.CoreFacts Proof.ElemFacts Proof.PlainFacts Proof.PlainTools Proof.PlainElem Proof.SumBonds Proof.GridSum Proof.LatticeAmplitude.
Import ListNotations.

(** ** tables *)
Definition table {A : Type} (m n : nat) (f : nat -> nat -> A) : list (list A) := map (fun i => map (f i) (seq 0 n)) (seq 0 m).
Definition at_site {A : Type} (f : nat -> nat -> A) (i j : nat) (x : A) (i' j' : nat) : A := if Nat.eqb i' i && Nat.eqb j' j then x else f i' j'.

Lemma nth_row : forall (A : Type) (f : nat -> A) k n, k < n -> nth_error (map f (seq 0 n)) k = Some (f k).
Proof.
  intros A f k n H. rewrite nth_error_map. assert (G : forall n s k, k < n -> nth_error (seq s n) k = Some (s + k)).
  { induction n0 as [|n0 IH]; intros s k0 Hk; [lia|]. destruct k0 as [|k0]; cbn; [f_equal; lia|]. rewrite IH by lia. f_equal. lia. }
  now rewrite G.
Qed.
Lemma cell_table : forall (A : Type) m n (f : nat -> nat -> A) i j, i < m -> j < n -> cell (table m n f) i j = Ok (f i j).
Proof. intros A m n f i j Hi Hj. unfold cell, table. rewrite (nth_row _ _ i m Hi). cbn [get_or_ub bind]. now rewrite (nth_row _ _ j n Hj). Qed.
Lemma update_map_seq : forall (A : Type) (f g : nat -> A) n k x s, k < n -> g (s + k) = x -> (forall i, i <> s + k -> g i = f i) -> update (map f (seq s n)) k x = Some (map g (seq s n)).
Proof.
  intros A f g. induction n as [|n IH]; intros k x s Hk Hg Ho; [lia|]. cbn [seq map update]. destruct k as [|k].
  - f_equal. f_equal; [now rewrite Nat.add_0_r in Hg|]. apply map_ext_in. intros i Hi. apply in_seq in Hi. symmetry. apply Ho. lia.
  - rewrite (IH k x (S s)); [|lia| |].
    + f_equal. f_equal. symmetry. apply Ho. lia.
    + rewrite <- Hg. f_equal. lia.
    + intros i Hi. apply Ho. lia.
Qed.
Lemma put_table : forall (A : Type) m n (f : nat -> nat -> A) i j x, i < m -> j < n -> put_cell (table m n f) i j x = Ok (table m n (at_site f i j x)).
Proof.
  intros A m n f i j x Hi Hj. unfold put_cell, table. rewrite (nth_row _ _ i m Hi). cbn [get_or_ub bind].
  rewrite (update_map_seq A (f i) (at_site f i j x i) n j x 0 Hj).
  - cbn [get_or_ub bind]. rewrite (update_map_seq _ _ (fun i' => map (at_site f i j x i') (seq 0 n)) m i _ 0 Hi); [reflexivity|reflexivity|].
    intros i' Hi'. apply map_ext. intro j'. unfold at_site. cbn in Hi'. apply Nat.eqb_neq in Hi'. now rewrite Hi'.
  - unfold at_site. cbn. now rewrite !Nat.eqb_refl.
  - intros j' Hj'. unfold at_site. cbn in Hj'. apply Nat.eqb_neq in Hj'. now rewrite Hj', andb_false_r.
Qed.
Lemma repeat_table : forall (A : Type) m n (x : A), repeat (repeat x n) m = table m n (fun _ _ => x).
Proof.
  intros A m n x. assert (G : forall (B : Type) (y : B) k s, repeat y k = map (fun _ => y) (seq s k)).
  { intros B y. induction k as [|k IH]; intro s; [reflexivity|]. cbn. now rewrite <- IH. }
  unfold table. rewrite (G A x n 0), (G _ _ m 0). reflexivity.
Qed.
Lemma table_ext : forall (A : Type) m n (f g : nat -> nat -> A), (forall i j, i < m -> j < n -> f i j = g i j) -> table m n f = table m n g.
Proof. intros A m n f g H. unfold table. apply map_ext_in. intros i Hi. apply in_seq in Hi. apply map_ext_in. intros j Hj. apply in_seq in Hj. apply H; lia. Qed.
Lemma foldM_app : forall (A B : Type) (f : A -> B -> res A) l l' a, foldM f (l ++ l') a = bind (foldM f l a) (foldM f l').
Proof. intros A B f. induction l as [|x l IH]; intros l' a; [reflexivity|]. cbn [app foldM]. destruct (f a x) as [b| | |]; cbn [bind]; try reflexivity. apply IH. Qed.

Section Spins.
  Context {R V : Type} {RR : Scalar R}.
  Notation tens := (tensor unit R).
  Implicit Types t x : tens.
  Implicit Types h : list (@action R).
  Variables (M N d : nat) (dim : bond -> nat).

  Definition in_site (i j u v l r : nat) : Prop := u < size_up dim i j /\ v < size_down M dim i j /\ l < size_left dim i j /\ r < size_right N dim i j.
  Lemma network_ext_range : exact_arithmetic R -> forall (f g : nat -> nat -> nat -> nat -> nat -> nat -> R),
    (forall i j u v l r, i < M -> j < N -> in_site i j u v l r -> f i j u v l r = g i j u v l r) -> network_sum M N dim f = network_sum M N dim g.
  Proof.
    intros EA f g H. unfold network_sum. apply (Over_ext_range bond_eqb bond_spec); [apply NoDup_bonds|]. intros q Q0 Q1. f_equal. apply map_ext_in. intros [i j] Hs.
    unfold sites in Hs. apply in_flat_map in Hs as [i' [Hi Hs]]. apply in_map_iff in Hs as [j' [E' Hj]]. injection E' as -> ->. apply in_seq in Hi, Hj. cbn [site_factor].
    assert (B : forall b, inner M N b = true -> q b < dim b) by (intros b Hb; apply Q1; now apply in_bonds).
    assert (Z : forall b, inner M N b = false -> q b = 0) by (intros b Hb; apply Q0; intro X; apply in_bonds in X; congruence).
    apply H; [lia|lia|]. unfold in_site. repeat split.
    - destruct i as [|i]; [cbn; lia|]. cbn [size_up]. apply B. cbn [inner]. apply andb_true_iff. rewrite !Nat.ltb_lt. lia.
    - unfold size_down. destruct (1 + i <? M) eqn:C; [apply B; cbn [inner]; apply andb_true_iff; split; [exact C|now apply Nat.ltb_lt]|]. rewrite Z; [lia|]. cbn [inner]. apply andb_false_iff. now left.
    - destruct j as [|j]; [cbn; lia|]. cbn [size_left]. apply B. cbn [inner]. apply andb_true_iff. rewrite !Nat.ltb_lt. lia.
    - unfold size_right. destruct (1 + j <? N) eqn:C; [apply B; cbn [inner]; apply andb_true_iff; split; [now apply Nat.ltb_lt|exact C]|]. rewrite Z; [lia|]. cbn [inner]. apply andb_false_iff. now right.
  Qed.

  (** ** a tensor cut at a spin *)
  Definition up_slot (i j : nat) : option nat := match i with 0 => None | S i' => Some (dim (Below i' j)) end.
  Definition down_slot (i j : nat) : option nat := if 1 + i <? M then Some (dim (Below i j)) else None.
  Definition left_slot (i j : nat) : option nat := match j with 0 => None | S j' => Some (dim (Right_of i j')) end.
  Definition right_slot (i j : nat) : option nat := if 1 + j <? N then Some (dim (Right_of i j)) else None.
  Definition site_slots (i j : nat) : slots := [(nm Up 0, up_slot i j); (nm Down 0, down_slot i j); (nm Lft 0, left_slot i j); (nm Rgt 0, right_slot i j)].
  Definition spin_slots (i j : nat) : slots := (phys, Some d) :: site_slots i j.

  Lemma not_listed : forall t n l, wf_tensor t -> (forall k, In k (t_names t) -> In k l) -> ~ In n l -> dimension t n = None.
  Proof.
    intros t n l W H Hn. destruct (dimension t n) eqn:D; [|reflexivity]. exfalso. apply Hn, H. apply (dimension_named t n W). congruence.
  Qed.
  Lemma slot_out : forall (K : slots) n, ~ In n (keys K) -> slot K n = None.
  Proof. intros K n H. destruct (slot K n) eqn:S0; [|reflexivity]. exfalso. apply H. apply slot_keys. congruence. Qed.
  Lemma fits_spin_has : forall i j t, fits_spin M N dim d i j t <-> has t (spin_slots i j).
  Proof.
    intros i j t. split.
    - intros [W B P U D' L' R' O]. constructor; [exact W|exact B|]. intro n.
      destruct (in_dec Nat.eq_dec n [phys; nm Up 0; nm Down 0; nm Lft 0; nm Rgt 0]) as [Hn|Hn].
      + destruct Hn as [<-|[<-|[<-|[<-|[<-|[]]]]]]; assumption.
      + rewrite (not_listed t n _ W O Hn). symmetry. apply slot_out. exact Hn.
    - intros [W B D']. constructor; [exact W|exact B|apply D'|apply D'|apply D'|apply D'|apply D'|].
      intros n Hn. apply (dimension_named t n W) in Hn. rewrite D' in Hn. now apply slot_keys in Hn.
  Qed.
  Lemma fits_site_has : forall i j t, fits_site M N dim i j t <-> has t (site_slots i j).
  Proof.
    intros i j t. split.
    - intros [W B U D' L' R' O]. constructor; [exact W|exact B|]. intro n.
      destruct (in_dec Nat.eq_dec n [nm Up 0; nm Down 0; nm Lft 0; nm Rgt 0]) as [Hn|Hn].
      + destruct Hn as [<-|[<-|[<-|[<-|[]]]]]; assumption.
      + rewrite (not_listed t n _ W O Hn). symmetry. apply slot_out. exact Hn.
    - intros [W B D']. constructor; [exact W|exact B|apply D'|apply D'|apply D'|apply D'|].
      intros n Hn. apply (dimension_named t n W) in Hn. rewrite D' in Hn. now apply slot_keys in Hn.
  Qed.
  Lemma slot_sizes : forall i j, size (up_slot i j) = size_up dim i j /\ size (down_slot i j) = size_down M dim i j /\ size (left_slot i j) = size_left dim i j /\ size (right_slot i j) = size_right N dim i j.
  Proof. intros i j. unfold up_slot, down_slot, left_slot, right_slot, size_down, size_right. repeat split; [now destruct i|now destruct (1 + i <? M)|now destruct j|now destruct (1 + j <? N)]. Qed.
  Lemma in_site_slots : forall i j u v l r, in_site i j u v l r -> in_slots (site_slots i j) [(nm Up 0, u); (nm Down 0, v); (nm Lft 0, l); (nm Rgt 0, r)].
  Proof.
    intros i j u v l r [H1 [H2 [H3 H4]]]. destruct (slot_sizes i j) as [S1 [S2 [S3 S4]]]. rewrite <- S1 in H1. rewrite <- S2 in H2. rewrite <- S3 in H3. rewrite <- S4 in H4.
    apply in_slots_all. cbn [keys site_slots map fst]. repeat apply Forall_cons; [left|left|left|left|apply Forall_nil]; assumption.
  Qed.

  (** x is t cut at spin s *)
  Definition is_cut (i j : nat) (s : Z) t x : Prop :=
    fits_site M N dim i j x /\ forall u v l r, in_site i j u v l r -> elements x u v l r = spin_elements t (Z.to_nat s) u v l r.
  Section Cut.
    Hypothesis EA : exact_arithmetic R.
    Variables (E : @env R) (J : internal).
    Hypothesis HJ : NoDup [i_contract_0 J; i_contract_1 J; i_contract_2 J].
    Lemma cut_at_ok : forall i j t s, fits_spin M N dim d i j t -> (0 <= s < Z.of_nat d)%Z -> exists x, cut_at E J t s = Ok x /\ is_cut i j s t x.
    Proof.
      intros i j t s F Hs. unfold cut_at. destruct (Z.ltb_spec s 0) as [Q|_]; [lia|]. apply fits_spin_has in F.
      destruct (shrink_has EA E J HJ t (spin_slots i j) phys d (Z.to_nat s) F eq_refl ltac:(lia)) as [x [X1 [X2 X3]]].
      exists x. split; [exact X1|]. change (without [phys] (spin_slots i j)) with (site_slots i j) in X2, X3. split; [now apply fits_site_has|].
      intros u v l r H. unfold elements, spin_elements. apply X3. now apply in_site_slots.
    Qed.

    (** ** actions *)
    Record state_is (st : list (list tens) * spins) (T : nat -> nat -> tens) (sp : nat -> nat -> Z) (cu : nat -> nat -> option tens) : Prop := {
      st_owner : fst st = table M N T;
      st_cut : s_cut (snd st) = table M N cu;
      st_spin : s_spin (snd st) = table M N sp;
      st_fits : forall i j, i < M -> j < N -> fits_spin M N dim d i j (T i j);
      st_range : forall i j, i < M -> j < N -> (-1 <= sp i j < Z.of_nat d)%Z }.
    (** a cut tensor is there exactly when the spin is set; [stale]: it may be the cut of another tensor *)
    Definition kept (stale : nat -> nat -> Prop) (T : nat -> nat -> tens) (sp : nat -> nat -> Z) (cu : nat -> nat -> option tens) : Prop :=
      forall i j, i < M -> j < N -> (sp i j = (-1)%Z /\ cu i j = None) \/ ((0 <= sp i j)%Z /\ exists x, cu i j = Some x /\ (is_cut i j (sp i j) (T i j) x \/ stale i j)).

    Lemma at_site_hit : forall (A : Type) (f : nat -> nat -> A) i j (y : A), at_site f i j y i j = y.
    Proof. intros. unfold at_site. now rewrite !Nat.eqb_refl. Qed.
    Lemma at_site_miss : forall (A : Type) (f : nat -> nat -> A) i j (y : A) i' j', (i', j') <> (i, j) -> at_site f i j y i' j' = f i' j'.
    Proof. intros A f i j y i' j' H. unfold at_site. destruct (Nat.eqb_spec i' i) as [->|]; [|reflexivity]. destruct (Nat.eqb_spec j' j) as [->|]; [congruence|reflexivity]. Qed.
    Lemma site_dec : forall i j i' j' : nat, (i', j') = (i, j) \/ (i', j') <> (i, j).
    Proof. intros. destruct (Nat.eq_dec i' i) as [->|]; [|right; congruence]. destruct (Nat.eq_dec j' j) as [->|]; [now left|right; congruence]. Qed.

    Lemma set_spin_ok : forall st T sp cu stale i j s, state_is st T sp cu -> kept stale T sp cu -> i < M -> j < N -> (-1 <= s < Z.of_nat d)%Z ->
      exists c cu', set_spin E J (fst st) (snd st) i j s = Ok c /\ state_is (fst st, c) T (at_site sp i j s) cu' /\ kept (fun i' j' => stale i' j' /\ ((i', j') = (i, j) -> sp i j = s)) T (at_site sp i j s) cu'.
    Proof.
      intros st T sp cu stale i j s S0 K Hi Hj Hs. unfold set_spin. rewrite (st_spin _ _ _ _ S0), cell_table by assumption. cbn [bind].
      destruct (Z.eqb_spec (sp i j) s) as [<-|Hne].
      - exists (snd st), cu. split; [reflexivity|].
        assert (X : forall i' j', at_site sp i j (sp i j) i' j' = sp i' j') by (intros i' j'; unfold at_site; destruct (Nat.eqb_spec i' i) as [->|]; [destruct (Nat.eqb_spec j' j) as [->|]|]; reflexivity).
        split.
        + destruct S0 as [A1 A2 A3 A4 A5]. constructor; cbn [fst snd]; auto; [rewrite A3; apply table_ext; intros; now rewrite X|]. intros i' j' Hi' Hj'. rewrite X. now apply A5.
        + intros i' j' Hi' Hj'. rewrite X. destruct (K i' j' Hi' Hj') as [K1|[K1 [x [K2 K3]]]]; [now left|]. right. split; [exact K1|]. exists x. split; [exact K2|].
          destruct K3 as [K3|K3]; [now left|]. right. split; [exact K3|]. reflexivity.
      - assert (X : exists o, (if (s =? -1)%Z then Ok None else bind (cell (fst st) i j) (fun t => bind (cut_at E J t s) (fun x => Ok (Some x)))) = Ok o /\
            ((s = (-1)%Z /\ o = None) \/ ((0 <= s)%Z /\ exists x, o = Some x /\ is_cut i j s (T i j) x))).
        { destruct (Z.eqb_spec s (-1)) as [->|Hm]; [exists None; split; [reflexivity|left; auto]|].
          rewrite (st_owner _ _ _ _ S0), cell_table by assumption. cbn [bind]. destruct (cut_at_ok i j (T i j) s (st_fits _ _ _ _ S0 i j Hi Hj) ltac:(lia)) as [x [X1 X2]].
          rewrite X1. cbn [bind]. exists (Some x). split; [reflexivity|]. right. split; [lia|]. now exists x. }
        destruct X as [o [-> Ho]]. cbn [bind]. rewrite (st_cut _ _ _ _ S0), put_table by assumption. cbn [bind]. rewrite put_table by assumption. cbn [bind].
        exists (mkSpins (table M N (at_site cu i j o)) (table M N (at_site sp i j s))), (at_site cu i j o). split; [reflexivity|]. split.
        + destruct S0 as [A1 A2 A3 A4 A5]. constructor; cbn [fst snd s_cut s_spin]; auto. intros i' j' Hi' Hj'. destruct (site_dec i j i' j') as [Q|Q].
          * injection Q as -> ->. rewrite at_site_hit. lia.
          * rewrite at_site_miss by exact Q. now apply A5.
        + intros i' j' Hi' Hj'. destruct (site_dec i j i' j') as [Q|Q].
          * injection Q as -> ->. rewrite !at_site_hit. destruct Ho as [Ho|[Ho1 [x [Ho2 Ho3]]]]; [now left|]. right. split; [exact Ho1|]. exists x. split; [exact Ho2|]. now left.
          * rewrite !at_site_miss by exact Q. destruct (K i' j' Hi' Hj') as [K1|[K1 [x [K2 K3]]]]; [now left|]. right. split; [exact K1|]. exists x. split; [exact K2|].
            destruct K3 as [K3|K3]; [now left|]. right. split; [exact K3|]. congruence.
    Qed.
    Lemma initialize_ok : forall (g : nat -> nat -> Z) l st T sp cu, state_is st T sp cu -> kept (fun _ _ => False) T sp cu ->
      (forall i j, In (i, j) l -> i < M /\ j < N /\ (-1 <= g i j < Z.of_nat d)%Z) ->
      exists c sp' cu', foldM (fun c ij => bind (Ok (g (fst ij) (snd ij))) (fun s => set_spin E J (fst st) c (fst ij) (snd ij) s)) l (snd st) = Ok c /\
        state_is (fst st, c) T sp' cu' /\ kept (fun _ _ => False) T sp' cu' /\ forall i j, (In (i, j) l -> sp' i j = g i j) /\ (~ In (i, j) l -> sp' i j = sp i j).
    Proof.
      intros g. induction l as [|[i j] l IH]; intros st T sp cu S0 K Hl.
      - exists (snd st), sp, cu. destruct st as [o c]. cbn [foldM fst snd]. repeat split; try apply S0; try assumption; intros; contradiction.
      - cbn [foldM fst snd bind]. destruct (Hl i j (or_introl eq_refl)) as [Hi [Hj Hg]].
        destruct (set_spin_ok st T sp cu (fun _ _ => False) i j (g i j) S0 K Hi Hj Hg) as [c [cu' [C1 [C2 C3]]]]. rewrite C1. cbn [bind].
        assert (C4 : kept (fun _ _ => False) T (at_site sp i j (g i j)) cu').
        { intros i' j' Hi' Hj'. destruct (C3 i' j' Hi' Hj') as [A|[A [x [B [D|[[] _]]]]]]; [now left|]. right. split; [exact A|]. exists x. auto. }
        destruct (IH (fst st, c) T _ cu' C2 C4) as [c' [sp' [cu2 [D1 [D2 [D3 D4]]]]]]; [intros i' j' H; apply Hl; now right|]. cbn [fst snd] in D1.
        exists c', sp', cu2. split; [exact D1|]. split; [exact D2|]. split; [exact D3|]. intros i' j'. destruct (D4 i' j') as [D5 D6]. split.
        + intro H. destruct (in_dec (fun a b : nat * nat => ltac:(decide equality; apply Nat.eq_dec)) (i', j') l) as [H'|H']; [now apply D5|].
          rewrite D6 by exact H'. destruct H as [H|H]; [|contradiction]. injection H as -> ->. apply at_site_hit.
        + intro H. rewrite D6 by (intro; apply H; now right). apply at_site_miss. intro Q. apply H. left. congruence.
    Qed.
    Lemma in_all_sites : forall i j, In (i, j) (flat_map (fun i => map (pair i) (seq 0 N)) (seq 0 M)) <-> i < M /\ j < N.
    Proof.
      intros i j. rewrite in_flat_map. split.
      - intros [i' [Hi H]]. apply in_map_iff in H as [j' [Q Hj]]. injection Q as -> ->. apply in_seq in Hi, Hj. lia.
      - intros [Hi Hj]. exists i. split; [apply in_seq; lia|]. apply in_map. apply in_seq. lia.
    Qed.
    Lemma fresh_state : forall o T, o = table M N T -> (forall i j, i < M -> j < N -> fits_spin M N dim d i j (T i j)) ->
      state_is (o, fresh M N) T (fun _ _ => (-1)%Z) (fun _ _ => None) /\ kept (fun _ _ => False) T (fun _ _ => (-1)%Z) (fun _ _ => None).
    Proof.
      intros o T Ho F. split; [constructor; cbn [fst snd fresh s_cut s_spin]; auto using repeat_table; intros; lia|]. intros i j _ _. left. auto.
    Qed.
    Lemma foldM_ext : forall (A B : Type) (f g : A -> B -> res A) l a, (forall a b, In b l -> f a b = g a b) -> foldM f l a = foldM g l a.
    Proof. intros A B f g. induction l as [|b l IH]; intros a H; [reflexivity|]. cbn [foldM]. rewrite H by (now left). destruct (g a b); cbn [bind]; auto. apply IH. intros; apply H; now right. Qed.
    Lemma renew_ok : forall st T sp cu, state_is st T sp cu ->
      exists c cu', renew E J M N (fst st) (snd st) = Ok c /\ state_is (fst st, c) T sp cu' /\ kept (fun _ _ => False) T sp cu'.
    Proof.
      intros st T sp cu S0. destruct (fresh_state (fst st) T (st_owner _ _ _ _ S0) (st_fits _ _ _ _ S0)) as [F1 F2].
      destruct (initialize_ok sp (flat_map (fun i => map (pair i) (seq 0 N)) (seq 0 M)) _ _ _ _ F1 F2) as [c [sp' [cu' [C1 [C2 [C3 C4]]]]]].
      { intros i j H. apply in_all_sites in H. split; [apply H|]. split; [apply H|]. now apply (st_range _ _ _ _ S0). }
      cbn [fst snd] in C1, C2. exists c, cu'. split.
      - unfold renew, initialize_spin. rewrite <- C1. apply foldM_ext. intros a [i j] H. apply in_all_sites in H as [Hi Hj]. cbn [fst snd]. now rewrite (st_spin _ _ _ _ S0), cell_table by assumption.
      - assert (X : forall i j, i < M -> j < N -> sp' i j = sp i j) by (intros i j Hi Hj; apply C4; now apply in_all_sites). split.
        + destruct C2 as [A1 A2 A3 A4 A5]. constructor; auto; [cbn [snd] in A3 |- *; rewrite A3; now apply table_ext|]. intros i j Hi Hj. rewrite <- X by assumption. now apply A5.
        + intros i j Hi Hj. rewrite <- X by assumption. now apply C3.
    Qed.

    (** ** histories *)
    Variable T0 : nat -> nat -> tens.
    Hypothesis HT : forall i j, i < M -> j < N -> fits_spin M N dim d i j (T0 i j).
    Definition stale (h : list (@action R)) (i j : nat) : Prop :=
      exists before t after, h = before ++ SetTensor i j t :: after /\ spin_after before i j <> (-1)%Z /\ ~ In Renew after /\ ~ In (SetSpin i j (-1)%Z) after.
    Lemma spin_snoc : forall (h : list (@action R)) a i j, spin_after (h ++ [a]) i j = match a with SetSpin i' j' s => at_site (spin_after h) i' j' s i j | _ => spin_after h i j end.
    Proof. intros h a i j. unfold spin_after at 1. rewrite fold_left_app. cbn [fold_left]. fold (spin_after h i j). destruct a; try reflexivity. unfold at_site. now rewrite (Nat.eqb_sym i0 i), (Nat.eqb_sym j0 j). Qed.
    Lemma tensor_snoc : forall h a i j, tensor_after T0 (h ++ [a]) i j = match a with SetTensor i' j' t => at_site (tensor_after T0 h) i' j' t i j | _ => tensor_after T0 h i j end.
    Proof. intros h a i j. unfold tensor_after at 1. rewrite fold_left_app. cbn [fold_left]. fold (tensor_after T0 h i j). destruct a; try reflexivity. unfold at_site. now rewrite (Nat.eqb_sym i0 i), (Nat.eqb_sym j0 j). Qed.
    Lemma stale_snoc : forall h a i j, stale h i j -> a <> Renew -> a <> SetSpin i j (-1)%Z -> stale (h ++ [a]) i j.
    Proof.
      intros h a i j [b [t [af [-> [H1 [H2 H3]]]]]] A1 A2. exists b, t, (af ++ [a]). split; [now rewrite <- app_assoc|]. split; [exact H1|].
      split; intro Q; apply in_app_iff in Q as [Q|[Q|[]]]; contradiction.
    Qed.
    Lemma run_ok : forall h, Forall (proper M N dim d) h ->
      exists st cu, run E J M N h (table M N T0, fresh M N) = Ok st /\ state_is st (tensor_after T0 h) (spin_after h) cu /\ kept (stale h) (tensor_after T0 h) (spin_after h) cu.
    Proof.
      intros h. induction h as [|a h IH] using rev_ind; intro P.
      - destruct (fresh_state (table M N T0) T0 eq_refl HT) as [F1 F2]. exists (table M N T0, fresh M N), (fun _ _ => None). split; [reflexivity|]. split; [exact F1|].
        intros i j Hi Hj. left. split; reflexivity.
      - apply Forall_app in P as [P Pa]. apply Forall_inv in Pa. destruct (IH P) as [st [cu [R1 [R2 R3]]]]. unfold run. rewrite foldM_app. fold (run E J M N h (table M N T0, fresh M N)). rewrite R1. cbn [bind foldM].
        destruct a as [i j s|i j t|]; cbn [act proper] in *.
        + destruct Pa as [Hi [Hj Hs]]. destruct (set_spin_ok st _ _ cu _ i j s R2 R3 Hi Hj Hs) as [c [cu' [C1 [C2 C3]]]]. rewrite C1. cbn [bind]. exists (fst st, c), cu'. split; [reflexivity|]. split.
          * destruct C2 as [A1 A2 A3 A4 A5]. constructor; auto.
            -- cbn [fst snd] in *; rewrite A1. apply table_ext. intros. now rewrite tensor_snoc.
            -- cbn [fst snd] in *; rewrite A3. apply table_ext. intros. now rewrite spin_snoc.
            -- intros i' j' Hi' Hj'. rewrite tensor_snoc. now apply A4.
            -- intros i' j' Hi' Hj'. rewrite spin_snoc. now apply A5.
          * intros i' j' Hi' Hj'. rewrite spin_snoc, tensor_snoc. destruct (C3 i' j' Hi' Hj') as [A|[A [x [B D]]]]; [now left|]. right. split; [exact A|]. exists x. split; [exact B|].
            destruct D as [D|[D1 D2]]; [now left|]. right. apply stale_snoc; [exact D1|discriminate|]. intro Q. injection Q as -> -> ->. rewrite at_site_hit in A. lia.
        + destruct Pa as [Hi [Hj F]]. rewrite (st_owner _ _ _ _ R2), put_table by assumption. cbn [bind]. exists (table M N (at_site (tensor_after T0 h) i j t), snd st), cu. split; [reflexivity|]. split.
          * destruct R2 as [A1 A2 A3 A4 A5]. constructor; auto.
            -- apply table_ext. intros. now rewrite tensor_snoc.
            -- cbn [fst snd] in *; rewrite A3. apply table_ext. intros. now rewrite spin_snoc.
            -- intros i' j' Hi' Hj'. rewrite tensor_snoc. destruct (site_dec i j i' j') as [Q|Q]; [injection Q as -> ->; now rewrite at_site_hit|]. rewrite at_site_miss by exact Q. now apply A4.
            -- intros i' j' Hi' Hj'. rewrite spin_snoc. now apply A5.
          * intros i' j' Hi' Hj'. rewrite spin_snoc, tensor_snoc. destruct (R3 i' j' Hi' Hj') as [A|[A [x [B D]]]]; [now left|]. right. split; [exact A|]. exists x. split; [exact B|].
            destruct (site_dec i j i' j') as [Q|Q].
            -- injection Q as -> ->. right. exists h, t, []. split; [reflexivity|]. split; [lia|]. split; intros [].
            -- rewrite at_site_miss by exact Q. destruct D as [D|D]; [now left|]. right. apply stale_snoc; [exact D|discriminate|discriminate].
        + destruct (renew_ok st _ _ cu R2) as [c [cu' [C1 [C2 C3]]]]. rewrite C1. cbn [bind]. exists (fst st, c), cu'. split; [reflexivity|]. split.
          * destruct C2 as [A1 A2 A3 A4 A5]. constructor; auto.
            -- cbn [fst snd] in *; rewrite A1. apply table_ext. intros. now rewrite tensor_snoc.
            -- cbn [fst snd] in *; rewrite A3. apply table_ext. intros. now rewrite spin_snoc.
            -- intros i' j' Hi' Hj'. rewrite tensor_snoc. now apply A4.
            -- intros i' j' Hi' Hj'. rewrite spin_snoc. now apply A5.
          * intros i' j' Hi' Hj'. rewrite spin_snoc, tensor_snoc. destruct (C3 i' j' Hi' Hj') as [A|[A [x [B [D|[]]]]]]; [now left|]. right. split; [exact A|]. exists x. auto.
    Qed.
    Lemma careful_fresh : forall h i j, careful h -> ~ stale h i j.
    Proof. intros h i j C [b [t [a [H1 [H2 [H3 H4]]]]]]. destruct (C b i j t a H1) as [Q|[Q|Q]]; contradiction. Qed.
    Lemma keeps_careful : forall h : list (@action R), Forall keeps_tensors h -> careful h.
    Proof. intros h H b i j t a ->. apply Forall_app in H as [_ H]. apply Forall_inv in H. destruct H. Qed.
    Lemma keeps_tensor_after : forall h i j, Forall (@keeps_tensors R) h -> tensor_after T0 h i j = T0 i j.
    Proof. intros h i j. induction h as [|a h IH] using rev_ind; [reflexivity|]. intro H. apply Forall_app in H as [H Ha]. apply Forall_inv in Ha. rewrite tensor_snoc. destruct a; [now apply IH|destruct Ha|now apply IH]. Qed.
  End Cut.
End Spins.
