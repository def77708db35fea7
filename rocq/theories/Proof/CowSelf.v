(** In-place arithmetic of a tensor with itself, references kept across a copy, and counts. *)
From Coq Require Import String List Bool Arith ZArith Lia.
From Verif Require Import Base.Outcome Base.SMap Model.Symmetry Model.Edge Model.Core Model.EdgeOperator
  Model.Elementwise Model.Cow Spec.Copies Proof.SymmetryFacts Proof.ContractPlain Proof.CowFacts Proof.CowStep.
Import ListNotations.

Section CowSelf.
  Context {S R : Type} {SS : Sym S} {SL : SymLaws S} {RR : Scalar R}.
  Variable E : @env R.

  Lemma edges_eqb_refl : forall l : list (edge S), edges_eqb l l = true.
  Proof.
    intro l. unfold edges_eqb. rewrite Nat.eqb_refl. simpl. induction l as [|e l IH]; simpl; auto.
    rewrite IH, andb_true_r. unfold edge_eqb. rewrite map_eqb_refl. simpl. destruct is_fermi; auto. simpl.
    now destruct (earrow e).
  Qed.

  Lemma self_tensor : forall p st x t op, run E empty_state p = Ok st -> read st x = Some t ->
    (exists key a b, In (key, a :: b) (t_blocks t)) -> step E st (STensor x op x) = UB.
  Proof.
    intros p st x t op Hp Hr [key [a [b Hb]]]. pose proof (run_inv E p _ _ inv_empty Hp) as I.
    cbn [step]. destruct (unshare_ok st x t I Hr) as [st1 [h [-> [I1 [Hv [Hn [Hc _]]]]]]].
    cbn [bind]. rewrite Hv. cbn [get_or_ub bind]. rewrite fetch_cell, Hc. cbn [get_or_ub bind]. rewrite Hn.
    unfold aligned. cbn [t_names]. rewrite names_eqb_refl. cbn [settle]. unfold t_edges. cbn [t_core].
    rewrite edges_eqb_refl. cbn [negb]. rewrite Nat.eqb_refl. cbn [andb].
    assert (existsb (fun kb : list S * list R => negb (is_nil (snd kb))) (c_blocks (t_core t)) = true) as ->.
    { apply existsb_exists. exists (key, a :: b). split; auto. }
    reflexivity.
  Qed.

  Lemma locate_const_at : forall names (c : core S R) pos v, const_at (mkTensor names c) pos = Ok v ->
    exists ko, locate names c pos = Ok ko /\ peek c (fst ko) (snd ko) = Ok v.
  Proof.
    intros names c pos v H. rewrite const_at_places in H. destruct (locate names c pos) as [ko|e| |]; try discriminate. eauto.
  Qed.

  Lemma self_number_sole : forall p st x t op pos v h c, run E empty_state p = Ok st ->
    mfind x (st_vars st) = Some h -> mfind (h_core h) (st_heap st) = Some (1, c) ->
    read st x = Some t -> const_at t pos = Ok v -> step E st (SNumberAt x op x pos) = UB.
  Proof.
    intros p st x t op pos v h c Hp Hx Hh Hr Hv. cbn [step]. rewrite Hx. cbn [get_or_ub bind]. unfold fetch. rewrite Hh.
    cbn [option_map snd get_or_ub bind]. unfold read in Hr. rewrite Hx, Hh in Hr. injection Hr as <-.
    destruct (locate_const_at _ _ _ _ Hv) as [ko [-> _]]. cbn [settle]. unfold unshare. rewrite Hx. cbn [get_or_ub bind].
    rewrite Hh. cbn [get_or_ub bind fst snd]. change (Nat.eqb 1 1) with true. cbv iota. cbn [bind]. rewrite Nat.eqb_refl. reflexivity.
  Qed.

  Lemma self_number_shared : forall p st x t op pos v h n c, run E empty_state p = Ok st ->
    mfind x (st_vars st) = Some h -> mfind (h_core h) (st_heap st) = Some (n, c) -> n <> 1 ->
    read st x = Some t -> const_at t pos = Ok v ->
    exists st', step E st (SNumberAt x op x pos) = Ok (st', None) /\
      read st' x = Some (transform (fun a => op a v) t) /\ forall y, y <> x -> read st' y = read st y.
  Proof.
    intros p st x t op pos v h n c Hp Hx Hh Hn1 Hr Hv. pose proof (run_inv E p _ _ inv_empty Hp) as I.
    cbn [step]. rewrite Hx. cbn [get_or_ub bind]. unfold fetch at 1. rewrite Hh.
    cbn [option_map snd get_or_ub bind]. pose proof Hr as Hr0. unfold read in Hr0. rewrite Hx, Hh in Hr0. injection Hr0 as <-.
    destruct (locate_const_at _ _ _ _ Hv) as [ko [-> Hk]]. cbn [settle].
    assert (Ec : cell st (h_core h) = Some c) by (unfold cell; now rewrite Hh).
    assert (Hu : exists st1 h1, unshare st x = Ok (st1, h1) /\ inv [] st1 /\ mfind x (st_vars st1) = Some h1 /\
      h_names h1 = h_names h /\ cell st1 (h_core h1) = Some c /\ (forall y, read st1 y = read st y) /\
      (forall y g, mfind y (st_vars st1) = Some g -> h_core g = h_core h1 -> y = x) /\
      h_core h1 <> h_core h /\ cell st1 (h_core h) = Some c).
    { destruct (unshare_ok st x _ I Hr) as [st1 [h1 [Eu [I1 [Hv1 [Hn2 [Hc1 [Hr1 [Hu1 _]]]]]]]]]. exists st1, h1.
      assert (Hlt : h_core h < st_next st) by (apply (inv_next _ _ I); congruence).
      pose proof Eu as Eu0. unfold unshare in Eu0. rewrite Hx in Eu0. cbn [get_or_ub bind] in Eu0. rewrite Hh in Eu0.
      cbn [get_or_ub bind fst snd] in Eu0. apply Nat.eqb_neq in Hn1. rewrite Hn1 in Eu0.
      change (alloc st c) with (st_next st, snd (alloc st c)) in Eu0. cbv iota in Eu0. 
      assert (E0 : (store (snd (alloc st c)) x (mkHandle (h_names h) (st_next st)), mkHandle (h_names h) (st_next st)) = (st1, h1)) by congruence.
      pose proof (f_equal fst E0 : store (snd (alloc st c)) x (mkHandle (h_names h) (st_next st)) = st1) as E1.
      pose proof (f_equal snd E0 : mkHandle (h_names h) (st_next st) = h1) as E2. clear E0 Eu0.
      repeat (match goal with |- _ /\ _ => split end); auto.
      - rewrite <- E2. simpl. lia.
      - rewrite <- E1. unfold store. change (st_vars (snd (alloc st c))) with (st_vars st). rewrite Hx.
        pose proof (alloc_inv [] st c I) as J.
        pose proof (with_vars_inv [] (snd (alloc st c)) x (mkHandle (h_names h) (st_next st)) J) as K.
        change (st_vars (snd (alloc st c))) with (st_vars st) in K. rewrite Hx in K.
        rewrite (release_cell [] _ _ _ K).
        + change (cell (snd (alloc st c)) (h_core h) = Some c). rewrite (alloc_cell [] st c (h_core h) I).
          assert (Nat.eqb (h_core h) (st_next st) = false) as -> by (apply Nat.eqb_neq; lia). exact Ec.
        + cbn [st_vars with_vars]. pose proof (count_mset (h_core h) x (mkHandle (h_names h) (st_next st)) _ (inv_vars _ _ I)) as C.
          rewrite Hx in C. destruct (inv_count _ _ I _ _ _ Hh) as [Cn Cp]. simpl hit in C. rewrite Nat.eqb_refl in C.
          unfold occ in Cn. simpl count_occ in Cn. apply Nat.eqb_neq in Hn1. lia. }
    destruct Hu as [st1 [h1 [-> [I1 [Hv1 [Hn2 [Hc1 [Hr1 [Hu1 [Hd Ho]]]]]]]]]]. cbn [bind].
    apply Nat.eqb_neq in Hd. rewrite Hd. rewrite !fetch_cell, Ho, Hc1. cbn [get_or_ub bind]. rewrite Hk. cbn [bind].
    eexists. split; [reflexivity|].
    assert (Hw : forall z, read (overwrite st1 (h_core h1) (t_core (transform (fun a => op a v) (mkTensor (h_names h1) c)))) z =
      if Nat.eqb z x then Some (mkTensor (h_names h1) (t_core (transform (fun a => op a v) (mkTensor (h_names h1) c)))) else read st1 z)
      by (intro z; apply overwrite_read; auto; congruence).
    split.
    - rewrite Hw, Nat.eqb_refl, Hn2. reflexivity.
    - intros y Hy. rewrite Hw. apply Nat.eqb_neq in Hy. rewrite Hy. apply Hr1.
  Qed.

  (** ** A reference used at once *)
  Lemma ref_at_once : forall p st r x pos v st1, run E empty_state p = Ok st -> step E st (SRef r x pos) = Ok (st1, None) ->
    exists st2 t t', step E st1 (SWrite r v) = Ok (st2, None) /\ read st x = Some t /\ set_at t pos v = Ok t' /\
      read st2 x = Some t' /\ forall y, y <> x -> read st2 y = read st y.
  Proof.
    intros p st r x pos v st1 Hp H. pose proof (run_inv E p _ _ inv_empty Hp) as I. cbn [step] in H.
    destruct (read st x) as [t|] eqn:Ex.
    2:{ rewrite (unshare_ub st x I Ex) in H. discriminate. }
    destruct (unshare_ok st x t I Ex) as [st0 [h [Eu [I1 [Hv [Hn [Hc [Hr [Hu Ho]]]]]]]]]. rewrite Eu in H. cbn [bind] in H.
    rewrite fetch_cell, Hc in H. cbn [get_or_ub bind] in H. rewrite Hn in H.
    destruct (locate (t_names t) (t_core t) pos) as [ko|e| |] eqn:El; cbn [settle] in H; try discriminate H.
    assert (st1 = mkState (st_heap st0) (st_vars st0) (mset r (h_core h, fst ko, snd ko) (st_refs st0)) (st_next st0)) as -> by congruence.
    clear H.
    destruct (locate_peek _ _ _ _ El) as [w Hw].
    assert (Hk : exists c', poke (t_core t) (fst ko) (snd ko) v = Ok c').
    { unfold peek in Hw. unfold poke. destruct (mfind (fst ko) (c_blocks (t_core t))) as [b|]; [|discriminate]. cbn [get_or_ub bind] in *.
      assert (Hb : nth_error b (snd ko) <> None) by (destruct (nth_error b (snd ko)); discriminate).
      apply (update_some b (snd ko) v) in Hb as [b' ->]. cbn. eauto. }
    destruct Hk as [c' Hk]. cbn [step st_refs]. rewrite mfind_mset_same. cbn [get_or_ub bind fst snd].
    unfold fetch. cbn [st_heap]. change (option_map snd (mfind (h_core h) (st_heap st0))) with (cell st0 (h_core h)). rewrite Hc.
    cbn [get_or_ub bind]. rewrite Hk. cbn [bind]. eexists. exists t, (mkTensor (t_names t) c').
    assert (Hrd : forall z, read (overwrite (mkState (st_heap st0) (st_vars st0) (mset r (h_core h, fst ko, snd ko) (st_refs st0)) (st_next st0)) (h_core h) c') z =
      if Nat.eqb z x then Some (mkTensor (h_names h) c') else read st0 z).
    { intro z. apply (overwrite_read (mkState (st_heap st0) (st_vars st0) (mset r (h_core h, fst ko, snd ko) (st_refs st0)) (st_next st0)) x h c' z Hv);
        [change (cell st0 (h_core h) <> None); congruence|exact Hu]. }
    split; [reflexivity|]. split; [reflexivity|]. split.
    - destruct t as [names c]. rewrite set_at_places. cbn [t_names t_core] in *. rewrite El. cbn [bind]. rewrite Hk. reflexivity.
    - split.
      + rewrite Hrd, Nat.eqb_refl, Hn. reflexivity.
      + intros y Hy. rewrite Hrd. apply Nat.eqb_neq in Hy. rewrite Hy. apply Hr.
  Qed.

  (** ** Counts as lengths *)
  Lemma count_filter : forall a m, count a m = length (filter (fun xh : nat * handle => Nat.eqb (h_core (snd xh)) a) m).
  Proof.
    induction m as [|[k h] m IH]; [reflexivity|]. cbn [count filter snd hit]. rewrite IH. destruct (Nat.eqb (h_core h) a); reflexivity.
  Qed.
  Lemma counts : forall p st, run E (@empty_state S R) p = Ok st ->
    (forall a n c, mfind a (st_heap st) = Some (n, c) ->
       n = length (filter (fun xh => Nat.eqb (h_core (snd xh)) a) (st_vars st)) /\ n <> 0) /\
    (forall x h, mfind x (st_vars st) = Some h -> exists n c, mfind (h_core h) (st_heap st) = Some (n, c)).
  Proof.
    intros p st Hp. pose proof (run_inv E p _ _ inv_empty Hp) as I. split.
    - intros a n c H. destruct (inv_count _ _ I _ _ _ H) as [H1 H2]. rewrite <- count_filter. unfold occ in H1. simpl in H1. lia.
    - intros x h H. now apply (var_alive [] st x h).
  Qed.
End CowSelf.
