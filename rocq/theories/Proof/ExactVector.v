(** The vector of an exact lattice made of a network of tensors. *)
From Coq Require Import String Ascii List Bool Arith ZArith Lia Permutation Cantor.
From Verif Require Import Base.Outcome Base.SMap Model.Symmetry Model.Edge Model.Core Model.EdgeOperator Model.Elementwise Model.Contract Model.Misc Model.ShrinkExpand Model.Qr Model.Svd Model.Auxiliaries Model.Spins Model.SimpleTensor Model.Exact
  Spec.Blocks Spec.Relabel Spec.Contract Spec.Plain Spec.Lapack Spec.Grid Spec.SquareLattice Spec.SpinLattice Spec.Factor Spec.Truncate Spec.Spectrum Spec.Svd Proof.LoopFacts Proof.SumFacts Proof.CoreFacts Proof.ElemFacts Proof.ContractNames Proof.PlainFacts Proof.PlainTools Proof.PlainElem Proof.SumBonds Proof.GridSum Proof.LatticeAmplitude Proof.SpinFacts Proof.SpinAmplitude.
Import ListNotations.

Lemma site_name_inj : forall i j k l, site_name i j = site_name k l -> i = k /\ j = l.
Proof. intros i j k l H. unfold site_name in H. assert (G : Cantor.to_nat (i, j) = Cantor.to_nat (k, l)) by lia. apply (f_equal Cantor.of_nat) in G. rewrite !Cantor.cancel_of_to in G. now injection G. Qed.
Lemma down_not_site : forall i j k, site_name i j <> down_name k.
Proof. intros. unfold site_name, down_name. lia. Qed.

Section Vector.
  Context {R V : Type} {RR : Scalar R}.
  Notation tens := (tensor unit R).
  Hypotheses (EA : exact_arithmetic R) (MA : associative_product R) (MD : distributive_product R).
  Variables (E : @env R) (J : internal).
  Hypothesis HJ : NoDup [i_contract_0 J; i_contract_1 J; i_contract_2 J].
  Variables (M N d : nat) (dim : bond -> nat).
  Notation Over := (Over bond_eqb dim).
  Notation bset := (SumBonds.set bond_eqb).

  (** ** bonds met on the way *)
  Definition left_bond (ij : nat * nat) : list bond := match snd ij with 0 => [] | S j => [Right_of (fst ij) j] end.
  Definition up_bond (ij : nat * nat) : list bond := match fst ij with 0 => [] | S i => [Below i (snd ij)] end.
  Definition new_bonds (ij : nat * nat) : list bond := left_bond ij ++ up_bond ij.
  Definition done (i j : nat) : list (nat * nat) := sites i N ++ map (pair i) (seq 0 j).

  Lemma in_done : forall i j a b, j <= N -> In (a, b) (done i j) <-> (a < i /\ b < N) \/ (a = i /\ b < j).
  Proof.
    intros i j a b Hj. unfold done, sites. rewrite in_app_iff, in_flat_map, in_map_iff. split.
    - intros [[k [H1 H2]]|[k [H1 H2]]].
      + apply in_map_iff in H2. destruct H2 as [c [H2 H3]]. apply in_seq in H1, H3. injection H2 as -> ->. left. lia.
      + apply in_seq in H2. injection H1 as -> ->. right. lia.
    - intros [[H1 H2]|[-> H2]].
      + left. exists a. split; [apply in_seq; lia|]. apply in_map, in_seq. lia.
      + right. exists b. split; [reflexivity|apply in_seq; lia].
  Qed.
  Lemma done_row : forall i, done i N = done (S i) 0.
  Proof. intro i. unfold done, sites. rewrite seq_S, flat_map_app. cbn. now rewrite !app_nil_r. Qed.
  Lemma done_snoc : forall i j, done i (S j) = done i j ++ [(i, j)].
  Proof. intros. unfold done. rewrite seq_S, map_app, app_assoc. reflexivity. Qed.
  Lemma NoDup_done : forall i j, j <= N -> NoDup (done i j).
  Proof.
    assert (G : forall j i, j <= N -> NoDup (done i 0) -> NoDup (done i j)).
    { induction j as [|j IH]; intros i Hj H; [exact H|]. rewrite done_snoc. apply NoDup_app_intro; [apply IH; [lia|exact H]|repeat constructor; auto|].
      intros [a b] H1 [H2|[]]. injection H2 as -> ->. apply in_done in H1; lia. }
    induction i as [|i IH]; intros j Hj; apply G; auto; [constructor|]. rewrite <- done_row. apply IH. lia.
  Qed.
  Lemma in_left : forall b i j, In b (left_bond (i, j)) <-> 0 < j /\ b = Right_of i (j - 1).
  Proof. intros b i j. unfold left_bond. cbn [fst snd]. destruct j as [|j]; cbn [In]; [split; [tauto|intros [H _]; lia]|]. replace (S j - 1) with j by lia. intuition; lia. Qed.
  Lemma in_up : forall b i j, In b (up_bond (i, j)) <-> 0 < i /\ b = Below (i - 1) j.
  Proof. intros b i j. unfold up_bond. cbn [fst snd]. destruct i as [|i]; cbn [In]; [split; [tauto|intros [H _]; lia]|]. replace (S i - 1) with i by lia. intuition; lia. Qed.
  Lemma in_new : forall b i j, In b (new_bonds (i, j)) <-> (0 < j /\ b = Right_of i (j - 1)) \/ (0 < i /\ b = Below (i - 1) j).
  Proof. intros. unfold new_bonds. now rewrite in_app_iff, in_left, in_up. Qed.
  (** a bond is met at the site on its right or below *)
  Definition end_of (b : bond) : nat * nat := match b with Right_of i j => (i, S j) | Below i j => (S i, j) end.
  Lemma new_end : forall b ij, In b (new_bonds ij) -> end_of b = ij.
  Proof. intros b [i j] H. apply in_new in H. destruct H as [[H ->]|[H ->]]; cbn; f_equal; lia. Qed.
  Lemma NoDup_new : forall l, NoDup l -> NoDup (flat_map new_bonds l).
  Proof.
    induction l as [|[i j] l IH]; intro H; cbn [flat_map]; [constructor|]. inversion H; subst. apply NoDup_app_intro; [| now apply IH|].
    - unfold new_bonds, left_bond, up_bond. cbn [fst snd]. destruct i, j; cbn [app]; repeat constructor; cbn [In]; try tauto. intros [H'|[]]; discriminate.
    - intros b H1 H4. apply in_flat_map in H4. destruct H4 as [ij [H4 H5]]. apply new_end in H1, H5. congruence.
  Qed.
  Lemma new_bonds_all : Permutation (flat_map new_bonds (sites M N)) (bonds M N).
  Proof.
    apply NoDup_Permutation; [apply NoDup_new; pose proof (NoDup_done M 0 ltac:(lia)) as H; unfold done in H; cbn in H; now rewrite app_nil_r in H|apply NoDup_bonds|].
    intro b. rewrite in_flat_map, in_bonds. split.
    - intros [[i j] [H1 H2]]. apply in_all_sites in H1. apply in_new in H2. destruct H2 as [[H2 ->]|[H2 ->]]; unfold inner; apply andb_true_iff; rewrite !Nat.ltb_lt; lia.
    - intro H. exists (end_of b). destruct b as [i j|i j]; unfold inner in H; apply andb_true_iff in H; rewrite !Nat.ltb_lt in H; cbn [end_of];
        (split; [apply in_all_sites; lia|apply in_new]); [left|right]; (split; [lia|f_equal; lia]).
  Qed.

  (** ** the edges on the way *)
  Lemma find_tagged : forall (A B : Type) (f : A -> nat) (g : A -> B) l x, (forall y, In y l -> f y = f x -> y = x) -> In x l -> mfind (f x) (map (fun y => (f y, g y)) l) = Some (g x).
  Proof.
    intros A B f g l x. induction l as [|y l IH]; intros H Hx; [destruct Hx|]. destruct Hx as [->|Hx]; cbn [map mfind]; [now rewrite eqb_refl|]. destruct (Nat.eq_dec (f x) (f y)) as [Q|Q].
    - rewrite (H y) by (cbn; auto). now rewrite eqb_refl.
    - rewrite (neqb _ _ Q). apply IH; [|exact Hx]. intros z Hz. apply H. now right.
  Qed.
  Lemma find_untagged : forall (A B : Type) (f : A -> nat) (g : A -> B) l n, (forall y, In y l -> f y <> n) -> mfind n (map (fun y => (f y, g y)) l) = None.
  Proof.
    intros A B f g l n. induction l as [|y l IH]; intros H; cbn [map mfind]; [reflexivity|]. rewrite (neqb n (f y)) by (intro Q; apply (H y); cbn; auto).
    apply IH. intros z Hz. apply H. now right.
  Qed.
  Definition open_down (i j k : nat) : option nat := if k <? j then down_slot M dim i k else match i with 0 => None | S i' => down_slot M dim i' k end.
  Definition open_right (i j : nat) : option nat := match j with 0 => None | S j' => right_slot N dim i j' end.
  Definition edges_at (i j : nat) : slots :=
    map (fun ab => (site_name (fst ab) (snd ab), Some d)) (done i j) ++ map (fun k => (down_name k, open_down i j k)) (seq 0 N) ++ [(nm Rgt 0, open_right i j)].

  Lemma find_site : forall i j a b, In (a, b) (done i j) -> mfind (site_name a b) (edges_at i j) = Some (Some d).
  Proof.
    intros i j a b H. unfold edges_at. rewrite mfind_app.
    pose proof (find_tagged (nat * nat) (option nat) (fun ab => site_name (fst ab) (snd ab)) (fun _ => Some d) (done i j) (a, b)) as F. cbn [fst snd] in F. rewrite F; [reflexivity| |exact H].
    intros [x y] _ Q. apply site_name_inj in Q. destruct Q; now subst.
  Qed.
  Lemma nm_small : forall z, nm z 0 < 4.
  Proof. intros []; cbn; lia. Qed.
  Lemma find_no_site : forall i j a b, ~ In (a, b) (done i j) -> mfind (site_name a b) (edges_at i j) = None.
  Proof.
    intros i j a b H. unfold edges_at. rewrite mfind_app.
    rewrite (find_untagged (nat * nat) (option nat) (fun ab => site_name (fst ab) (snd ab)) (fun _ => Some d)) by (intros [x y] Hy Q; cbn [fst snd] in Q; apply site_name_inj in Q; destruct Q; now subst).
    rewrite mfind_app, (find_untagged nat (option nat) down_name (open_down i j)) by (intros y _ Q; symmetry in Q; now apply down_not_site in Q).
    cbn [mfind]. now rewrite (neqb (site_name a b)) by (unfold site_name; cbn; lia).
  Qed.
  Lemma find_down : forall i j k, k < N -> mfind (down_name k) (edges_at i j) = Some (open_down i j k).
  Proof.
    intros i j k H. unfold edges_at. rewrite mfind_app.
    rewrite (find_untagged (nat * nat) (option nat) (fun ab => site_name (fst ab) (snd ab)) (fun _ => Some d)) by (intros [x y] Hy; apply down_not_site).
    rewrite mfind_app, (find_tagged nat (option nat) down_name (open_down i j) (seq 0 N) k); [reflexivity|intros y _; unfold down_name; lia|apply in_seq; lia].
  Qed.
  Lemma find_right : forall i j, mfind (nm Rgt 0) (edges_at i j) = Some (open_right i j).
  Proof.
    intros i j. unfold edges_at. rewrite mfind_app.
    rewrite (find_untagged (nat * nat) (option nat) (fun ab => site_name (fst ab) (snd ab)) (fun _ => Some d)) by (intros [x y] Hy; unfold site_name; cbn; lia).
    rewrite mfind_app, (find_untagged nat (option nat) down_name (open_down i j)) by (intros y _; unfold down_name; cbn; lia). cbn [mfind]. now rewrite eqb_refl.
  Qed.
  Lemma keys_at : forall i j n, In n (keys (edges_at i j)) -> (exists a b, In (a, b) (done i j) /\ n = site_name a b) \/ (exists k, k < N /\ n = down_name k) \/ n = nm Rgt 0.
  Proof.
    intros i j n H. unfold keys, edges_at in H. rewrite !map_app, !in_app_iff, !map_map in H. destruct H as [H|[H|H]].
    - left. apply in_map_iff in H. destruct H as [[a b] [<- H]]. now exists a, b.
    - right. left. apply in_map_iff in H. destruct H as [k [<- H]]. apply in_seq in H. exists k. split; [lia|reflexivity].
    - right. right. cbn in H. destruct H as [<-|[]]. reflexivity.
  Qed.
  (** the site renamed *)
  Definition site_edges (i j : nat) : slots :=
    [(site_name i j, Some d); (nm Up 0, up_slot dim i j); (down_name j, down_slot M dim i j); (nm Lft 0, left_slot dim i j); (nm Rgt 0, right_slot N dim i j)].
  Definition names_at (i j : nat) : list (nat * nat) := [(nm Down 0, down_name j); (phys, site_name i j)].
  Definition joined (j : nat) : list (nat * nat) := [(nm Rgt 0, nm Lft 0); (down_name j, nm Up 0)].
  Definition after_edges (i j : nat) : slots := without (map fst (joined j)) (edges_at i j) ++ without (map snd (joined j)) (site_edges i j).

  Lemma member_false : forall n l, ~ In n l -> member n l = false.
  Proof. intros n l H. destruct (member n l) eqn:Q; [|reflexivity]. apply member_iff in Q. tauto. Qed.
  Lemma member_true : forall n l, In n l -> member n l = true.
  Proof. intros n l H. now apply member_iff. Qed.
  Lemma after_slot : forall i j n, slot (after_edges i j) n =
    if member n [nm Rgt 0; down_name j] then slot (without [nm Lft 0; nm Up 0] (site_edges i j)) n
    else match mfind n (edges_at i j) with Some o => o | None => slot (without [nm Lft 0; nm Up 0] (site_edges i j)) n end.
  Proof.
    intros i j n. unfold after_edges. rewrite slot_app. unfold without at 1. rewrite (find_filter (fun k => negb (member k (map fst (joined j))))). cbn [joined map fst snd]. destruct (member n [nm Rgt 0; down_name j]); reflexivity.
  Qed.
  Lemma open_left : forall i j, j < N -> open_right i j = left_slot dim i j.
  Proof. intros i [|j] H; cbn; [reflexivity|]. unfold right_slot. now rewrite (proj2 (Nat.ltb_lt (1 + j) N)) by lia. Qed.
  Lemma open_up : forall i j, i < M -> open_down i j j = up_slot dim i j.
  Proof. intros i j H. unfold open_down. rewrite Nat.ltb_irrefl. destruct i as [|i]; [reflexivity|]. unfold down_slot. cbn [up_slot]. now rewrite (proj2 (Nat.ltb_lt (1 + i) M)) by lia. Qed.
  Lemma open_down_other : forall i j k, k <> j -> open_down i (S j) k = open_down i j k.
  Proof. intros i j k H. unfold open_down. destruct (Nat.ltb_spec k j), (Nat.ltb_spec k (S j)); (reflexivity || lia). Qed.
  Lemma open_down_same : forall i j, open_down i (S j) j = down_slot M dim i j.
  Proof. intros. unfold open_down. now rewrite (proj2 (Nat.ltb_lt j (S j))) by lia. Qed.

  Ltac neq := unfold site_name, down_name; cbn; lia.
  Lemma site_key : forall i j n o, mfind n (site_edges i j) = Some o -> In n [site_name i j; nm Up 0; down_name j; nm Lft 0; nm Rgt 0].
  Proof. intros i j n o H. apply mfind_In in H. apply (in_map fst) in H. exact H. Qed.
  Lemma rest_slot : forall i j n, slot (without [nm Lft 0; nm Up 0] (site_edges i j)) n =
    if Nat.eqb n (site_name i j) then Some d else if Nat.eqb n (down_name j) then down_slot M dim i j else if Nat.eqb n (nm Rgt 0) then right_slot N dim i j else None.
  Proof.
    intros i j n. rewrite slot_without. destruct (Nat.eqb_spec n (site_name i j)) as [->|H1].
    { rewrite member_false by (cbn [In]; intros [Q|[Q|[]]]; revert Q; neq). unfold slot. cbn [site_edges mfind]. now rewrite eqb_refl. }
    destruct (Nat.eqb_spec n (down_name j)) as [->|H2].
    { rewrite member_false by (cbn [In]; intros [Q|[Q|[]]]; revert Q; neq). unfold slot. cbn [site_edges mfind]. now rewrite !neqb, eqb_refl by neq. }
    destruct (Nat.eqb_spec n (nm Rgt 0)) as [->|H3].
    { rewrite member_false by (cbn [In]; intros [Q|[Q|[]]]; revert Q; neq). unfold slot. cbn [site_edges mfind]. now rewrite !neqb, eqb_refl by neq. }
    destruct (member n [nm Lft 0; nm Up 0]) eqn:Q; [reflexivity|]. unfold slot. destruct (mfind n (site_edges i j)) as [o|] eqn:F; [|reflexivity]. exfalso.
    assert (Q' : ~ In n [nm Lft 0; nm Up 0]) by (intro H; apply member_iff in H; congruence). apply site_key in F. cbn [In] in *. intuition.
  Qed.
  Lemma after_at : forall i j, i < M -> j < N -> forall n, slot (after_edges i j) n = slot (edges_at i (S j)) n.
  Proof.
    intros i j Hi Hj n. rewrite after_slot, rest_slot.
    assert (Hd : forall a b, In (a, b) (done i (S j)) <-> In (a, b) (done i j) \/ (a = i /\ b = j)) by (intros a b; rewrite !in_done by lia; lia).
    destruct (in_dec Nat.eq_dec n (keys (edges_at i (S j)))) as [K|K].
    - apply keys_at in K. destruct K as [[a [b [H ->]]]|[[k [Hk ->]]| ->]].
      + rewrite member_false by (cbn [In]; intros [Q|[Q|[]]]; revert Q; neq). unfold slot at 1. rewrite (find_site i (S j) a b H).
        destruct (proj1 (Hd a b) H) as [H'|[-> ->]]; [now rewrite (find_site i j a b H')|]. rewrite find_no_site by (rewrite in_done; lia). now rewrite Nat.eqb_refl.
      + unfold slot. rewrite (find_down i (S j) k Hk). destruct (Nat.eq_dec k j) as [->|Q].
        * rewrite member_true by (right; now left). rewrite (proj2 (Nat.eqb_neq (down_name j) (site_name i j))) by (intro Q; symmetry in Q; now apply down_not_site in Q). now rewrite Nat.eqb_refl, open_down_same.
        * rewrite member_false by (cbn [In]; intros [Q'|[Q'|[]]]; revert Q'; neq). rewrite (find_down i j k Hk). now rewrite open_down_other.
      + unfold slot. rewrite (find_right i (S j)), member_true by (now left). rewrite (proj2 (Nat.eqb_neq (nm Rgt 0) (site_name i j))) by neq. rewrite (proj2 (Nat.eqb_neq (nm Rgt 0) (down_name j))) by neq. now rewrite Nat.eqb_refl.
    - assert (A : forall o, mfind n (edges_at i (S j)) <> Some o) by (intros o H; apply K; apply mfind_In in H; exact (in_map fst _ _ H)).
      assert (A1 : n <> site_name i j) by (intros ->; eapply A; apply find_site; apply Hd; auto).
      assert (A2 : forall k, k < N -> n <> down_name k) by (intros k Hk ->; eapply A; now apply find_down).
      assert (A3 : n <> nm Rgt 0) by (intros ->; eapply A; apply find_right).
      assert (F0 : mfind n (edges_at i (S j)) = None) by (destruct (mfind n (edges_at i (S j))) as [o|]; [exfalso; now apply (A o)|reflexivity]). unfold slot. rewrite F0.
      rewrite (proj2 (Nat.eqb_neq _ _) A1), (proj2 (Nat.eqb_neq _ _) (A2 j Hj)), (proj2 (Nat.eqb_neq _ _) A3).
      rewrite member_false by (cbn [In]; intros [Q|[Q|[]]]; [now apply A3|now apply (A2 j Hj)]).
      destruct (mfind n (edges_at i j)) as [o|] eqn:F; [|reflexivity]. exfalso. apply mfind_In in F. apply (in_map fst) in F. cbn [fst] in F.
      apply keys_at in F. destruct F as [[a [b [H ->]]]|[[k [Hk ->]]| ->]]; [eapply A; apply find_site; apply Hd; auto|now apply (A2 k Hk)|now apply A3].
  Qed.
  (** the state before row i + 1 is the state at the end of row i *)
  Lemma row_slots : forall i n, slot (edges_at i N) n = slot (edges_at (S i) 0) n.
  Proof.
    intros i n.
    assert (A : edges_at i N = map (fun ab => (site_name (fst ab) (snd ab), Some d)) (done (S i) 0) ++ map (fun k => (down_name k, open_down (S i) 0 k)) (seq 0 N) ++ [(nm Rgt 0, open_right i N)]).
    { unfold edges_at. rewrite done_row. f_equal. f_equal. apply map_ext_in. intros k Hk. apply in_seq in Hk. unfold open_down. now rewrite (proj2 (Nat.ltb_lt k N)) by lia. }
    rewrite A. unfold edges_at. f_equal. f_equal. f_equal. f_equal. f_equal. unfold open_right. destruct N as [|n']; [reflexivity|]. unfold right_slot.
    now rewrite (proj2 (Nat.ltb_ge (1 + n') (S n'))) by lia.
  Qed.
End Vector.
