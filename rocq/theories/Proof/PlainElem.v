(** Tensors without symmetry: shrink, expand, conjugate and element-wise operations as functions of named indices. *)
From Coq Require Import String Ascii List Bool Arith Lia Permutation.
From Verif Require Import Base.Outcome Base.SMap Model.Symmetry Model.Edge Model.Core Model.EdgeOperator Model.Elementwise Model.Contract Model.Misc Model.ShrinkExpand
  Spec.Blocks Spec.Sign Spec.Relabel Spec.Contract Spec.Conjugate Spec.Values Spec.Plain Proof.SymmetryFacts Proof.LoopFacts Proof.CoreFacts Proof.ElemFacts Proof.LegFacts Proof.SumFacts Proof.RenameFacts Proof.TransposeNames Proof.RegroupFacts Proof.ContractNames Proof.GemmFacts
  Proof.ContractPlain Proof.HotContract Proof.ShrinkFacts Proof.ExpandFacts Proof.ConjugateFacts Proof.ElementwiseFacts Proof.ScalarOpFacts Proof.WholeFacts Proof.PlainFacts Proof.PlainTools.
Import ListNotations.

Section Elem.
  Context {R : Type} {RR : Scalar R}.
  Implicit Types t r : tensor unit R.

  Definition place t (a : list (nat * nat)) : list (nat * (unit * nat)) := map (fun n => (n, (tt, index a n))) (t_names t).
  Lemma place_assigns : forall t a, assigns (place t a) (t_names t) (map (fun n => (tt, index a n)) (t_names t)).
  Proof. intros t a. unfold assigns, place. rewrite map_map. apply map_ext_in. intros n Hn. now apply (find_pos (fun n => (tt, index a n))). Qed.
  Lemma place_valid : forall t K a, has t K -> in_slots K a -> valid_pt (t_core t) (map (fun n => (tt, index a n)) (t_names t)).
  Proof. intros t K a H Ha. split; [|destruct (ssum _); reflexivity]. rewrite <- (map_map (index a) (fun i => (tt, i))). now apply (in_range_ext_plain t a K H). Qed.
  Lemma place_read : forall t K a, has t K -> in_slots K a -> const_at t (place t a) = Ok (value t a).
  Proof. intros t K a H Ha. exact (value_read t K a H Ha). Qed.
  Lemma read_at : forall t K a pos, has t K -> in_slots K a -> (forall n, In n (t_names t) -> mfind n pos = Some (tt, index a n)) -> const_at t pos = Ok (value t a).
  Proof.
    intros t K a pos H Ha Hp. rewrite <- (place_read t K a H Ha). apply const_at_ext. intros n Hn. rewrite (Hp n Hn). symmetry. now apply (find_pos (fun n => (tt, index a n))).
  Qed.
  Lemma dimension_legs : forall r (L : list (nat * edge unit)) n, t_names r = map fst L -> t_edges r = map snd L ->
    dimension r n = match mfind n L with Some e => Some (match emap e with sd :: _ => snd sd | [] => 0 end) | None => None end.
  Proof.
    intros r L n Hn He. unfold dimension, legs_of. rewrite Hn, He.
    replace (combine (map fst L) (map snd L)) with L; [reflexivity|]. clear. induction L as [|[x y] L IH]; [reflexivity|]. cbn. now rewrite <- IH.
  Qed.
  Lemma find_legs : forall (f : nat -> edge unit) l n, mfind n (map (fun n => (n, f n)) l) = if member n l then Some (f n) else None.
  Proof.
    intros f l n. induction l as [|m l IH]; [reflexivity|]. cbn [map mfind]. unfold member in *. cbn [existsb]. destruct (Nat.eq_dec n m) as [->|H].
    - now rewrite eqb_refl, Nat.eqb_refl.
    - rewrite (neqb n m H). apply Nat.eqb_neq in H. now rewrite H.
  Qed.
  Lemma dimension_kept : forall t n, (match mfind n (legs_of t) with Some _ => true | None => false end) = true ->
    Some (match emap (edge_named (legs_of t) n) with sd :: _ => snd sd | [] => 0 end) = dimension t n.
  Proof. intros t n H. unfold dimension, edge_named. destruct (mfind n (legs_of t)); [reflexivity|discriminate]. Qed.
  Lemma dimension_in : forall t n, wf_tensor t -> In n (t_names t) -> Some (match emap (edge_named (legs_of t) n) with sd :: _ => snd sd | [] => 0 end) = dimension t n.
  Proof.
    intros t n W Hn. apply dimension_kept. destruct (mfind n (legs_of t)) eqn:F; [reflexivity|]. apply mfind_None in F. exfalso. apply F.
    unfold legs_of. now rewrite combine_map_fst by apply (wf_rank _ W).
  Qed.

  Section Cut.
    Hypothesis EA : exact_arithmetic R.
    Variables (E : @env R) (J : internal).
    Hypothesis HJ : NoDup [i_contract_0 J; i_contract_1 J; i_contract_2 J].

    (** one edge fixed at an index *)
    Theorem shrink_has : forall t K p d i, has t K -> slot K p = Some d -> i < d ->
      exists r, shrink E J t [(p, (tt, i))] None false = Ok r /\ has r (without [p] K) /\
        forall a, in_slots (without [p] K) a -> value r a = value t ((p, i) :: a).
    Proof.
      intros t K p d i H Hp Hi. assert (W := h_wf _ _ H). assert (B := h_block _ _ H).
      assert (Hin : In p (t_names t)) by (apply (has_in t K p H); congruence).
      assert (Hd : dim_of t p = d) by (assert (Q := has_size t K p H Hin); congruence).
      destruct (shrink_plain (SL := _) E J Nf EA Ns HJ t [(p, (tt, i))] None false W B) as [r [R1 [R2 [R3 [R4 [R5 R6]]]]]].
      - discriminate.
      - intros n s k Hx _. destruct Hx as [Hx|[]]. injection Hx as <- <- <-. exists d. split; [|exact Hi].
        rewrite (proj2 (dimension_of t p W B Hin)), Hd. now left.
      - cbn [olist map fst app] in R4, R5. exists r. split; [exact R1|].
        assert (HR : has r (without [p] K)).
        { constructor; [exact R2|exact R3|]. intro n.
          rewrite (dimension_legs r (map (fun n => (n, edge_named (legs_of t) n)) (free_names (t_names t) [p])) n).
          2:{ rewrite R4, map_map. now rewrite map_id. }
          2:{ rewrite R5, map_map. reflexivity. }
          rewrite find_legs, slot_without. destruct (member n [p]) eqn:Mp.
          - destruct (member n (free_names (t_names t) [p])) eqn:F; [|reflexivity]. apply mem_name_In in F. unfold free_names in F. apply filter_In in F as [_ F]. rewrite Mp in F. discriminate.
          - destruct (member n (free_names (t_names t) [p])) eqn:F.
            + apply mem_name_In in F. unfold free_names in F. apply filter_In in F as [F _]. rewrite dimension_in by assumption. apply (h_dim _ _ H).
            + destruct (slot K n) as [x|] eqn:Sl; [|reflexivity]. exfalso. assert (In n (t_names t)) by (apply (has_in t K n H); congruence).
              apply mem_name_false in F. apply F. unfold free_names. apply filter_In. split; [assumption|]. now rewrite Mp. }
        split; [exact HR|]. intros a Ha.
        assert (Q := R6 (place r a) _ (place_assigns r a) (place_valid r _ a HR Ha)). rewrite (place_read r _ a HR Ha) in Q.
        rewrite (read_at t K ((p, i) :: a)) in Q; [now injection Q| | |].
        + exact H.
        + intro n. rewrite index_cons. destruct (Nat.eqb_spec n p) as [->|Hn]; [left; rewrite Hp; exact Hi|].
          destruct (Ha n) as [Q1|Q1]; rewrite slot_without in Q1; (destruct (member n [p]) eqn:Mp; [apply mem_name_In in Mp as [Mp|[]]; congruence|]); auto.
        + intros n Hn. rewrite index_cons. cbn [app mfind]. destruct (Nat.eqb_spec n p) as [->|Hne]; [now rewrite eqb_refl|]. rewrite (neqb n p Hne).
          apply (find_pos (fun n => (tt, index a n))). rewrite R4. apply filter_In. split; [exact Hn|]. apply negb_true_iff, mem_name_false. intros [X|[]]. congruence.
    Qed.

    (** a new edge; the elements at one index are those of t, the others are zero *)
    Theorem expand_has : forall t K p d i, has t K -> slot K p = None -> i < d ->
      exists r, expand E J t [(p, (false, (tt, (i, d))))] None = Ok r /\ has r ((p, Some d) :: K) /\
        forall a, in_slots ((p, Some d) :: K) a -> value r a = if Nat.eqb (index a p) i then value t a else rzero.
    Proof.
      intros t K p d i H Hp Hi. assert (W := h_wf _ _ H). assert (B := h_block _ _ H).
      assert (Hin : ~ In p (t_names t)) by (rewrite (has_in t K p H); intro X; now apply X).
      destruct (expand_plain (SL := _) E J Nf EA Ns HJ t [(p, (false, (tt, (i, d))))] None W B) as [r [R1 [R2 [R3 [R4 [R5 R6]]]]]].
      - repeat constructor. intros [].
      - intros n [<-|[]]. exact Hin.
      - intros x [<-|[]]. exact Hi.
      - discriminate.
      - cbn [olist map fst app] in R4, R5. assert (Fr : free_names (t_names t) [] = t_names t).
        { unfold free_names. clear. induction (t_names t) as [|n l IH]; [reflexivity|]. cbn [filter]. change (member n []) with false. cbn [negb]. now rewrite IH. }
        rewrite Fr in R4, R5. exists r. split; [exact R1|].
        assert (HR : has r ((p, Some d) :: K)).
        { constructor; [exact R2|exact R3|]. intro n.
          rewrite (dimension_legs r ((p, mkEdge false [(szero, d)]) :: map (fun n => (n, edge_named (legs_of t) n)) (t_names t)) n).
          2:{ cbn [map fst]. rewrite R4, map_map. now rewrite map_id. }
          2:{ cbn [map snd]. rewrite R5, map_map. reflexivity. }
          unfold slot. cbn [mfind]. destruct (Nat.eq_dec n p) as [->|Hn]; [rewrite eqb_refl; reflexivity|]. rewrite (neqb n p Hn).
          rewrite find_legs. fold (slot K n). destruct (member n (t_names t)) eqn:F.
          - apply mem_name_In in F. rewrite dimension_in by assumption. apply (h_dim _ _ H).
          - destruct (slot K n) as [x|] eqn:Sl; [|reflexivity]. exfalso. apply mem_name_false in F. apply F. apply (has_in t K n H). congruence. }
        split; [exact HR|]. intros a Ha.
        assert (Q := R6 (place r a) _ (place_assigns r a) (place_valid r _ a HR Ha)). rewrite (place_read r _ a HR Ha) in Q.
        cbn [forallb fst olist map app] in Q. rewrite andb_true_r in Q.
        assert (Cp : coord (place r a) p = (tt, index a p)).
        { unfold coord, place. rewrite (find_pos (fun n => (tt, index a n))); [reflexivity|]. rewrite R4. now left. }
        rewrite Cp in Q. cbn [snd x_index fst] in Q. destruct (Nat.eqb (index a p) i) eqn:Hi'; [|congruence].
        rewrite (read_at t K a) in Q; [now injection Q|exact H| |].
        + intro n. destruct (Nat.eq_dec n p) as [->|Hn]; [right; exact Hp|]. destruct (Ha n) as [Q1|Q1]; unfold slot in Q1; cbn [mfind] in Q1; rewrite (neqb n p Hn) in Q1; fold (slot K n) in Q1; auto.
        + intros n Hn. apply (find_pos (fun n => (tt, index a n))). rewrite R4. now right.
    Qed.
  End Cut.

  (** ** operations element by element *)
  Lemma transform_has : forall t K f, has t K -> has (transform f t) K /\ forall a, in_slots K a -> value (transform f t) a = f (value t a).
  Proof.
    intros t K f H. assert (HT : has (transform f t) K).
    { constructor; [apply transform_wf, (h_wf _ _ H)| |apply (h_dim _ _ H)]. cbn. intro Q. apply (h_block _ _ H). destruct (t_blocks t); [reflexivity|discriminate]. }
    split; [exact HT|]. intros a Ha.
    destruct (transform_at f t (place t a) _ (h_wf _ _ H) (place_assigns t a) (place_valid t K a H Ha)) as [v [V1 V2]].
    rewrite (place_read t K a H Ha) in V1. injection V1 as <-.
    change (place t a) with (place (transform f t) a) in V2. rewrite (place_read _ K a HT Ha) in V2. now injection V2.
  Qed.
  Lemma number_has : forall (E : @env R) f t K, has t K -> exists r, scalar_number E f t = Ok r /\ has r K /\ forall a, in_slots K a -> value r a = f (value t a).
  Proof. intros E f t K H. exists (transform f t). split; [apply scalar_number_transform, (h_wf _ _ H)|]. now apply transform_has. Qed.

  Lemma mapM_len : forall (A B : Type) (f : A -> res B) l l', mapM f l = Ok l' -> length l' = length l.
  Proof.
    intros A B f. induction l as [|x l IH]; intros l' H; cbn [mapM] in H; [now injection H as <-|].
    destruct (f x); cbn [bind] in H; try discriminate. destruct (mapM f l) as [k| | |]; cbn [bind] in H; try discriminate. injection H as <-. cbn. now rewrite (IH k).
  Qed.
  Lemma named_edge : forall t K n e, has t K -> In (n, e) (combine (t_names t) (t_edges t)) -> In n (t_names t) /\ emap e = [(tt, size (slot K n))].
  Proof.
    intros t K n e H Hin. assert (Hn := in_combine_l _ _ _ _ Hin). split; [exact Hn|].
    rewrite (has_size t K n H Hn). cbn [size]. rewrite <- (proj2 (dimension_of t n (h_wf _ _ H) (h_block _ _ H) Hn)). f_equal. unfold edge_named, legs_of.
    assert (F : mfind n (combine (t_names t) (t_edges t)) = Some e); [|now rewrite F].
    assert (ND := wf_nodup _ (h_wf _ _ H)). revert Hin ND. generalize (t_edges t). clear. induction (t_names t) as [|m l IH]; intros es Hin ND; [destruct Hin|].
    destruct es as [|e0 es]; [destruct Hin|]. cbn [combine] in *. cbn [mfind]. inversion ND as [|? ? N1 N2]; subst. destruct Hin as [Q|Hin].
    - injection Q as -> ->. now rewrite eqb_refl.
    - rewrite (neqb n m); [now apply IH|]. intros ->. apply N1. exact (in_combine_l _ _ _ _ Hin).
  Qed.
  Lemma inplace_has : forall (E : @env R) op t1 t2 K, has t1 K -> has t2 K ->
    exists r, scalar_inplace E op t1 t2 = Ok r /\ has r K /\ forall a, in_slots K a -> value r a = op (value t1 a) (value t2 a).
  Proof.
    intros E op t1 t2 K H1 H2. assert (P := names_perm t2 t1 K H2 H1).
    destruct (scalar_inplace_same (SL := _) E E op t1 t2 (h_wf _ _ H1) (h_wf _ _ H2) P) as [r [R1 [R2 [R3 R4]]]].
    { intros n e1 e2 I1 I2. split; [|discriminate]. rewrite (proj2 (named_edge t1 K n e1 H1 I1)), (proj2 (named_edge t2 K n e2 H2 I2)). reflexivity. }
    destruct (scalar_op_bosonic (SL := _) E op t1 t2 Nf (h_wf _ _ H1) (h_wf _ _ H2) P) as [r' [Q1 [Q2 [Q3 Q4]]]].
    { intros n e1 e2 s d1 d2 I1 I2 J1 J2. rewrite (proj2 (named_edge t1 K n e1 H1 I1)) in J1. rewrite (proj2 (named_edge t2 K n e2 H2 I2)) in J2.
      destruct J1 as [J1|[]], J2 as [J2|[]]. congruence. }
    rewrite R2 in Q1. injection Q1 as <-. exists r. split; [exact R1|].
    assert (HR : has r K).
    { constructor; [exact Q2| |].
      - unfold scalar_inplace in R1. destruct (aligned E (t_names t1) t2) as [t2'| | |]; cbn [bind] in R1; try discriminate.
        destruct (negb (edges_eqb (t_edges t1) (t_edges t2'))); [discriminate|].
        destruct (mapM _ (t_blocks t1)) as [bs| | |] eqn:Mb; cbn [bind] in R1; try discriminate. injection R1 as <-. apply mapM_len in Mb. cbn. intros ->. apply (h_block _ _ H1). now destruct (t_blocks t1).
      - intro n. rewrite <- (h_dim _ _ H1 n). unfold dimension, legs_of. now rewrite R3, R4. }
    split; [exact HR|]. intros a Ha.
    assert (NL : forall t, has t K -> ~ lacks t (place t1 a)).
    { intros t Ht [n [e [I1 I2]]]. destruct (named_edge t K n e Ht I1) as [Hn He]. rewrite He in I2. apply I2. left. cbn. now destruct (fst (coord (place t1 a) n)). }
    assert (P1 : place r a = place t1 a) by (unfold place; now rewrite R3).
    destruct (Q4 (place t1 a)) as [v1 [v2 [w [V1 [V2 [V3 [_ V4]]]]]]].
    - split.
      + intros n Hn. exists tt, (index a n). split; [apply (find_pos (fun n => (tt, index a n)) _ _ Hn)|].
        assert (L : length (t_names t1) = length (t_edges t1)) by apply (wf_rank _ (h_wf _ _ H1)).
        assert (X : exists e, In (n, e) (combine (t_names t1) (t_edges t1))).
        { revert L Hn. generalize (t_edges t1). clear. induction (t_names t1) as [|m l IH]; intros [|e es] L Hn; try discriminate; [destruct Hn|]. destruct Hn as [->|Hn].
          - exists e. now left.
          - destruct (IH es) as [e' He']; [now injection L|exact Hn|]. exists e'. now right. }
        destruct X as [e He]. exists e, (size (slot K n)). split; [now left|]. rewrite (proj2 (named_edge t1 K n e H1 He)). split; [now left|].
        destruct (Ha n) as [Q|Q]; [exact Q|]. apply (has_in t1 K n H1) in Hn. congruence.
      + destruct (ssum _); reflexivity.
    - destruct V1 as [[V1 _]|[V1 _]]; [|exfalso; now apply (NL t1 H1)]. destruct V2 as [[V2 _]|[V2 _]]; [|exfalso; now apply (NL t2 H2)].
      rewrite (place_read t1 K a H1 Ha) in V1. injection V1 as <-.
      rewrite (read_at t2 K a) in V2.
      + injection V2 as <-. rewrite <- P1, (place_read r K a HR Ha) in V3. injection V3 as <-. apply V4. intros [X _]. now apply (NL t1 H1).
      + exact H2.
      + exact Ha.
      + intros n Hn. apply (find_pos (fun n => (tt, index a n))). now apply (Permutation_in _ P).
  Qed.
  Lemma binary_has : forall (E : @env R) op t1 t2 K, has t1 K -> has t2 K ->
    exists r, scalar_op E op t1 t2 = Ok r /\ has r K /\ forall a, in_slots K a -> value r a = op (value t1 a) (value t2 a).
  Proof.
    intros E op t1 t2 K H1 H2. destruct (inplace_has E op t1 t2 K H1 H2) as [r [R1 R2]]. exists r. split; [|exact R2].
    destruct (scalar_inplace_same (SL := _) E E op t1 t2 (h_wf _ _ H1) (h_wf _ _ H2) (names_perm t2 t1 K H2 H1)) as [r' [Q1 [Q2 _]]].
    { intros n e1 e2 I1 I2. split; [|discriminate]. rewrite (proj2 (named_edge t1 K n e1 H1 I1)), (proj2 (named_edge t2 K n e2 H2 I2)). reflexivity. }
    rewrite R1 in Q1. injection Q1 as <-. exact Q2.
  Qed.

  Lemma same_edges_has : forall t r K, has t K -> wf_tensor r -> t_names r = t_names t -> map emap (t_edges r) = map emap (t_edges t) -> has r K.
  Proof.
    intros t r K H W Hn Me. constructor; [exact W| |].
    - intro B. apply (h_block _ _ H). assert (S1 := wf_shape _ (wf_tcore _ W)). assert (S2 := wf_shape _ (wf_tcore _ (h_wf _ _ H))).
      change (c_blocks (t_core r)) with (t_blocks r) in S1. change (c_blocks (t_core t)) with (t_blocks t) in S2. change (c_edges (t_core r)) with (t_edges r) in S1. change (c_edges (t_core t)) with (t_edges t) in S2.
      unfold maps_of in S1, S2. rewrite Me, <- S2, B in S1. destruct (t_blocks t); [reflexivity|discriminate].
    - intro n. rewrite <- (h_dim _ _ H n). unfold dimension, legs_of. rewrite Hn. revert Me. generalize (t_names t). generalize (t_edges r). generalize (t_edges t). clear.
      induction l as [|e l IH]; intros [|e' l'] ns Me; try discriminate; [reflexivity|]. destruct ns as [|m ns]; [reflexivity|]. cbn [combine mfind]. injection Me as Me1 Me2.
      destruct (eqb n m); [now rewrite Me1|]. now apply IH.
  Qed.
  Lemma nth_combine : forall (A B : Type) (l : list A) (l' : list B) k a b, nth_error l k = Some a -> nth_error l' k = Some b -> In (a, b) (combine l l').
  Proof.
    intros A B. induction l as [|x l IH]; intros [|y l'] [|k] a b Ha Hb; cbn in Ha, Hb; try discriminate.
    - injection Ha as ->. injection Hb as ->. now left.
    - right. now apply (IH l' k).
  Qed.

  (** conjugation; [real]: the scalar type is real *)
  Lemma conjugate_has : forall (E : @env R) real t K, has t K ->
    exists r, conjugate E real t = Ok r /\ has r K /\ forall a, in_slots K a -> value r a = if real then value t a else rconj (value t a).
  Proof.
    intros E real t K H. destruct (conjugate_at (SL := _) E real t (fun _ => Nf) (h_wf _ _ H)) as [r [R1 [R2 [R3 [R4 R5]]]]].
    exists r. split; [exact R1|].
    assert (Me : map emap (t_edges r) = map emap (t_edges t)).
    { assert (G : forall es, (forall e, In e es -> exists d, emap e = [(tt, d)]) -> forall es', Forall2 (fun e e' : edge unit => earrow e' = (if @is_fermi unit _ then negb (earrow e) else earrow e) /\ emap e' = cmap (emap e)) es es' -> map emap es' = map emap es).
      { induction es as [|e es IH]; intros He es' F; inversion F as [|x y l l' X Y]; subst; [reflexivity|]. cbn [map]. f_equal.
        - destruct (He e (or_introl eq_refl)) as [d Hd]. rewrite (proj2 X), Hd. reflexivity.
        - apply IH; [|exact Y]. intros e' He'. apply He. now right. }
      refine (G _ _ _ R4). intros e He.
      destruct (In_nth_error _ _ He) as [k Hk]. assert (Lk := wf_rank _ (h_wf _ _ H)).
      destruct (nth_error (t_names t) k) as [n|] eqn:Nk.
      - exists (size (slot K n)). apply (proj2 (named_edge t K n e H (nth_combine _ _ _ _ k n e Nk Hk))).
      - exfalso. apply nth_error_None in Nk. assert (k < length (t_edges t)) by (apply nth_error_Some; congruence). lia. }
    assert (HR : has r K) by (now apply (same_edges_has t)).
    split; [exact HR|]. intros a Ha.
    destruct (R5 (place t a) _ (place_assigns t a) (place_valid t K a H Ha)) as [v [V1 V2]]. rewrite (place_read t K a H Ha) in V1. injection V1 as <-.
    assert (Pn : negated (place t a) = place r a) by (unfold negated, place; rewrite map_map, R3; reflexivity).
    rewrite Pn, (place_read r K a HR Ha) in V2. injection V2 as ->.
    assert (Z : exchanged_odd (leg_odd (place t a)) (t_names t) (rev (t_names t)) = 0); [|rewrite Z; reflexivity].
    now apply bose_exchanged.
  Qed.
End Elem.
