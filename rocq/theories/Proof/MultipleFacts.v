(** Multiplication by a spectrum. *)
From Coq Require Import String Ascii List Bool Arith Lia Sorted Permutation.
From Verif Require Import Base.Outcome Base.SMap Model.Symmetry Model.Edge Model.Core Model.EdgeOperator Model.Elementwise Model.Misc
  Spec.Blocks Spec.Sign Spec.Relabel Spec.Values Spec.Spectrum Proof.SymmetryFacts Proof.LoopFacts Proof.CoreFacts Proof.ConstructFacts Proof.ElemFacts
  Proof.GroupFacts Proof.AddressFacts Proof.CopyLoopFacts Proof.TableFacts Proof.TransposeTensor Proof.SignFacts Proof.TransposeNames Proof.NamedOperator Proof.SplitMerged
  Proof.LegFacts Proof.ElementwiseFacts Proof.ScalarOpFacts Proof.WholeFacts.
Import ListNotations.

(** a counting loop with an invariant on the position reached *)
Lemma loop_count : forall A (P : nat -> A -> Prop) (f : A -> nat -> res A) step cnt base x,
  (forall j y, j < cnt -> P (base + j * step) y -> exists y', f y j = Ok y' /\ P (base + (1 + j) * step) y') -> P base x ->
  exists y, foldM f (seq 0 cnt) x = Ok y /\ P (base + cnt * step) y.
Proof.
  intros A P f step cnt base x H Hx.
  assert (G : forall n k x, k + n = cnt -> P (base + k * step) x -> exists y, foldM f (seq k n) x = Ok y /\ P (base + cnt * step) y).
  { induction n as [|n IH]; intros k y Hk Hy.
    - exists y. split; [reflexivity|]. replace cnt with k by lia. exact Hy.
    - destruct (H k y) as [y' [E1 E2]]; [lia|exact Hy|]. cbn [seq foldM]. rewrite E1. cbn [bind]. apply IH; [lia|exact E2]. }
  apply (G cnt 0); auto. cbn. now rewrite Nat.add_0_r.
Qed.

Section Multiple.
  Context {S R : Type} {SS : Sym S} {SL : SymLaws S} {RR : Scalar R}.
  Notation entry := (S * nat)%type.
  Notation tlegs t := (combine (t_names t) (t_edges t)).

  Lemma multiple_kernel_ok : forall m k n (dst src s : list R), length src = m * k * n -> length dst = m * k * n -> k <= length s ->
    exists d, multiple_kernel m k n dst src s = Ok d /\ length d = m * k * n /\
      forall a b c, a < m -> b < k -> c < n -> exists x v, nth_error src ((a * k + b) * n + c) = Some x /\ nth_error s b = Some v /\
        nth_error d ((a * k + b) * n + c) = Some (rmul x v).
  Proof.
    intros m k n dst src s Hs Hd Hk. set (g := fun i => rmul (nth i src rzero) (nth ((i / n) mod k) s rzero)).
    set (P := fun pos (d : list R) => length d = m * k * n /\ forall i, i < pos -> nth_error d i = Some (g i)).
    destruct (loop_count _ P (fun dst a => foldM (fun dst b => bind (get_or_ub (nth_error s b)) (fun v => foldM (fun dst c =>
          bind (get_or_ub (nth_error src ((a * k + b) * n + c))) (fun x => get_or_ub (update dst ((a * k + b) * n + c) (rmul x v)))) (seq 0 n) dst)) (seq 0 k) dst) (k * n) m 0 dst)
      as [d [E HP]].
    - intros a y Ha Hy. cbn [Nat.add] in *. replace (Datatypes.S a * (k * n)) with (a * (k * n) + k * n) by lia.
      apply (loop_count _ P _ n k (a * (k * n))); [|exact Hy]. intros b z Hb Hz.
      destruct (nth_error s b) as [v|] eqn:Ev; [|apply nth_error_None in Ev; lia]. cbn [get_or_ub bind].
      replace (a * (k * n) + (1 + b) * n) with ((a * (k * n) + b * n) + n * 1) by lia. apply (loop_count _ P _ 1 n); [|exact Hz]. intros c w Hc Hw.
      replace ((a * k + b) * n + c) with (a * (k * n) + b * n + c) by lia. replace (a * (k * n) + b * n + c * 1) with (a * (k * n) + b * n + c) in Hw by lia.
      assert (Hlt : a * (k * n) + b * n + c < m * k * n). { assert (a * k + b < m * k) by nia. nia. }
      destruct (nth_error src (a * (k * n) + b * n + c)) as [x|] eqn:Ex; [|apply nth_error_None in Ex; lia]. cbn [get_or_ub bind]. destruct Hw as [L V].
      destruct (update_some w (a * (k * n) + b * n + c) (rmul x v)) as [w' Ew]; [lia|]. rewrite Ew. exists w'. split; [reflexivity|]. split; [now rewrite (update_length _ _ _ _ Ew)|].
      intros i Hi. destruct (Nat.eq_dec i (a * (k * n) + b * n + c)) as [->|Hne]; [|rewrite (update_other _ _ _ _ _ Ew Hne); apply V; lia].
      rewrite (update_same _ _ _ _ Ew). f_equal. unfold g. rewrite (nth_error_nth _ _ _ Ex).
      replace ((a * (k * n) + b * n + c) / n) with (a * k + b). 2:{ apply (Nat.div_unique _ n _ c); [lia|nia]. }
      replace ((a * k + b) mod k) with b by (apply (Nat.mod_unique _ k a); lia). now rewrite (nth_error_nth _ _ _ Ev).
    - split; auto. intros i Hi. lia.
    - exists d. unfold multiple_kernel. split; [exact E|]. destruct HP as [L V]. split; [exact L|]. intros a b c Ha Hb Hc.
      assert (Hlt : (a * k + b) * n + c < m * k * n). { assert (a * k + b < m * k) by nia. nia. }
      destruct (nth_error src ((a * k + b) * n + c)) as [x|] eqn:Ex; [|apply nth_error_None in Ex; lia]. destruct (nth_error s b) as [v|] eqn:Ev; [|apply nth_error_None in Ev; lia].
      exists x, v. split; auto. split; auto. rewrite V by lia. f_equal. unfold g. rewrite (nth_error_nth _ _ _ Ex).
      replace (((a * k + b) * n + c) / n) with (a * k + b) by (apply (Nat.div_unique _ n _ c); [lia|nia]).
      replace ((a * k + b) mod k) with b by (apply (Nat.mod_unique _ k a); lia). now rewrite (nth_error_nth _ _ _ Ev).
  Qed.

  Lemma product_at_ok : forall (es : list (edge S)) key ds, dims_of (maps_of es) key = Some ds -> product_at es key = Ok (prod ds).
  Proof.
    intros es key ds H. unfold product_at.
    assert (G : forall es key ds acc, dims_of (maps_of es) key = Some ds ->
      foldM (fun acc ek => bind (at_or_throw (mfind (snd ek) (emap (fst ek)))) (fun d => Ok (acc * d))) (combine es key) acc = Ok (acc * prod ds)).
    { clear. induction es as [|e es IH]; intros [|s key] ds acc H; cbn in H; try discriminate.
      - injection H as <-. cbn. f_equal. lia.
      - cbn [combine foldM fst snd]. destruct (mfind s (emap e)) as [d|]; [|discriminate]. fold (maps_of es) in H. destruct (dims_of (maps_of es) key) as [ds'|] eqn:E; [|discriminate].
        injection H as <-. cbn [at_or_throw bind]. rewrite (IH _ _ _ E). cbn [prod fold_right]. unfold prod. cbn [fold_right]. f_equal. lia. }
    rewrite (G es key ds 1 H). f_equal. lia.
  Qed.

  (** the direction letters *)
  (** the dimensions of a block around one leg *)
  Lemma dims_around : forall (es : list (edge S)) key ds i e s, dims_of (maps_of es) key = Some ds -> nth_error es i = Some e -> nth_error key i = Some s ->
    exists d1 k d2, ds = d1 ++ k :: d2 /\ length d1 = i /\ mfind s (emap e) = Some k /\
      dims_of (maps_of (firstn i es)) (firstn i key) = Some d1 /\ dims_of (maps_of (skipn (1 + i) es)) (skipn (1 + i) key) = Some d2.
  Proof.
    induction es as [|e0 es IH]; intros [|s0 key] ds i e s H He Hs; cbn in H; try discriminate; [destruct i; discriminate|].
    destruct (mfind s0 (emap e0)) as [d0|] eqn:E0; [|discriminate]. fold (maps_of es) in H. destruct (dims_of (maps_of es) key) as [ds'|] eqn:E; [|discriminate]. injection H as <-.
    destruct i as [|i].
    - injection He as <-. injection Hs as <-. exists [], d0, ds'. cbn. auto.
    - cbn in He, Hs. destruct (IH _ _ _ _ _ E He Hs) as [d1 [k [d2 [A [B [C [D F]]]]]]]. exists (d0 :: d1), k, d2. subst. cbn. fold (maps_of (firstn (length d1) es)). rewrite D, E0. auto.
  Qed.

  Definition mstep (t : tensor S R) (spectrum : list (S * list R)) (index : nat) (dd division : bool) (blocks : list (list S * list R)) (kb : list S * list R) : res (list (list S * list R)) :=
    let '(key, src) := kb in
            bind (at_or_throw (mfind key blocks)) (fun dst =>
            bind (get_or_ub (nth_error key index)) (fun s0 =>
            let s := if dd then sneg s0 else s0 in
            bind (at_or_throw (mfind s spectrum)) (fun vector =>
            bind (product_at (firstn index (t_edges t)) (firstn index key)) (fun m =>
            bind (get_or_ub (nth_error (t_edges t) index)) (fun e =>
            bind (at_or_throw (mfind s0 (emap e))) (fun k =>
            bind (product_at (skipn (1 + index) (t_edges t)) (skipn (1 + index) key)) (fun nn =>
            if negb (Nat.eqb (length vector) k) then tat_error "Vector Size incompatible in Multiple with a tensor"
            else
            bind (multiple_kernel m k nn dst src (if division then map (rdiv rone) vector else vector)) (fun dst' =>
            Ok (mset key dst' blocks))))))))).

  Lemma mstep_ok : forall (t : tensor S R) spectrum n e index dd division, wf_tensor t -> nth_error (t_names t) index = Some n -> nth_error (t_edges t) index = Some e ->
    forall key b (blocks : list (list S * list R)) b0 s, In (key, b) (t_blocks t) -> mfind key blocks = Some b0 -> length b0 = length b -> nth_error key index = Some s ->
    (forall d vec, mfind s (emap e) = Some d -> mfind (turn dd s) spectrum = Some vec -> length vec = d ->
       exists d, mstep t spectrum index dd division blocks (key, b) = Ok (mset key d blocks) /\ length d = length b0 /\
         forall (pt : list entry) ds x, map fst pt = key -> dims_of (maps_of (t_edges t)) key = Some ds -> Forall2 lt (map snd pt) ds -> nth_error b (row_major ds (map snd pt)) = Some x ->
           exists v, nth_error vec (snd (nth index pt (szero, 0))) = Some v /\ nth_error d (row_major ds (map snd pt)) = Some (rmul x (weight division v))) /\
    ((forall d vec, mfind s (emap e) = Some d -> mfind (turn dd s) spectrum = Some vec -> length vec <> d) ->
       exists ex, mstep t spectrum index dd division blocks (key, b) = Throw ex).
  Proof.
    intros t spectrum n e index dd division W Hn He key b blocks b0 s Hin Hf HL Hs.
    assert (Hb : mfind key (c_blocks (t_core t)) = Some b) by (apply In_mfind; auto; apply wf_blocks_sorted; apply W).
    destruct (wf_find_block _ _ _ (wf_tcore _ W) Hb) as [Hz [ds [Hds Hlb]]]. fold (t_edges t) in Hds.
    destruct (dims_around _ _ _ _ _ _ Hds He Hs) as [d1 [k [d2 [-> [L1 [Hk [D1 D2]]]]]]].
    assert (Hprod : prod (d1 ++ k :: d2) = prod d1 * k * prod d2) by (unfold prod; rewrite fold_right_app; cbn [fold_right]; clear; induction d1; cbn; [lia|rewrite IHd1; lia]).
    unfold mstep. rewrite Hf. cbn [at_or_throw bind]. rewrite Hs. cbn [get_or_ub bind]. fold (turn dd s). cbv zeta. split.
    - intros d vec Hd Hv HLv. rewrite Hk in Hd. injection Hd as <-. rewrite Hv. cbn [at_or_throw bind]. rewrite (product_at_ok _ _ _ D1). cbn [bind]. rewrite He. cbn [get_or_ub bind].
      rewrite Hk. cbn [at_or_throw bind]. rewrite (product_at_ok _ _ _ D2). cbn [bind]. rewrite HLv, Nat.eqb_refl. cbn [negb].
      set (sv := if division then map (rdiv rone) vec else vec).
      assert (Lsv : length sv = k) by (unfold sv; destruct division; rewrite ?map_length; auto).
      destruct (multiple_kernel_ok (prod d1) k (prod d2) b0 b sv) as [d [K1 [K2 K3]]]; [lia|lia|lia|]. rewrite K1. cbn [bind]. exists d. split; [reflexivity|]. split; [lia|].
      intros pt ds x Hpt Hds' Hlt Hx. rewrite Hds in Hds'. injection Hds' as <-.
      assert (Hidx : exists i1 ib i2, map snd pt = i1 ++ ib :: i2 /\ length i1 = length d1 /\ Forall2 lt i1 d1 /\ ib < k /\ Forall2 lt i2 d2).
      { apply Forall2_app_inv_r in Hlt as [i1 [i2' [A [B C]]]]. inversion B as [|ib ? i2 ? B1 B2]; subst. exists i1, ib, i2. split; auto. split; auto. now apply Forall2_len in A. }
      destruct Hidx as [i1 [ib [i2 [Hi [Li [A1 [A2 A3]]]]]]]. rewrite Hi in *.
      assert (Hnth : snd (nth index pt (szero, 0)) = ib).
      { change 0 with (snd (szero : S, 0)). rewrite <- (map_nth snd), Hi. cbn [snd]. rewrite app_nth2 by lia. rewrite Li, L1, Nat.sub_diag. reflexivity. }
      assert (Hrm : row_major (d1 ++ k :: d2) (i1 ++ ib :: i2) = (row_major d1 i1 * k + ib) * prod d2 + row_major d2 i2).
      { pose proof (Forall2_len _ _ _ _ _ A3). rewrite row_major_app, row_major_cons by (cbn; lia). unfold prod at 1. cbn [fold_right]. fold (prod d2). lia. }
      rewrite Hrm in *. destruct (K3 (row_major d1 i1) ib (row_major d2 i2)) as [x' [v' [X1 [X2 X3]]]]; [now apply row_major_lt|auto|now apply row_major_lt|].
      rewrite Hx in X1. injection X1 as <-. rewrite Hnth. destruct (nth_error vec ib) as [v|] eqn:Ev; [|apply nth_error_None in Ev; lia]. exists v. split; auto. rewrite X3. do 2 f_equal.
      unfold sv, weight in *. destruct division; [rewrite nth_error_map, Ev in X2; now injection X2|congruence].
    - intro Hbad. destruct (mfind (turn dd s) spectrum) as [vec|] eqn:Ev; [|eexists; reflexivity]. cbn [at_or_throw bind]. rewrite (product_at_ok _ _ _ D1). cbn [bind]. rewrite He. cbn [get_or_ub bind].
      rewrite Hk. cbn [at_or_throw bind]. rewrite (product_at_ok _ _ _ D2). cbn [bind]. pose proof (Hbad k vec Hk eq_refl) as Hne. apply Nat.eqb_neq in Hne. rewrite Hne. eexists. reflexivity.
  Qed.

  (** the spectrum has a vector of the right length for every charge of the leg *)
  Theorem multiple_at : forall (E : @env R) (t : tensor S R) spectrum n c dd division, wf_tensor t -> In n (t_names t) -> dir_of c = Some dd -> fits t spectrum n dd ->
    exists r, multiple E t spectrum n c division = Ok r /\ wf_tensor r /\ t_names r = t_names t /\ t_edges r = t_edges t /\
      forall pos pt, assigns pos (t_names t) pt -> valid_pt (t_core t) pt -> exists x vec v, const_at t pos = Ok x /\
        mfind (turn dd (fst (coord pos n))) spectrum = Some vec /\ nth_error vec (snd (coord pos n)) = Some v /\
        const_at r pos = Ok (rmul x (weight division v)).
  Proof.
    intros E t spectrum n c dd division W Hn Hc Hfit. unfold multiple. fold (dir_of c). rewrite Hc.
    apply In_nth_error in Hn as [index Hn]. destruct (nth_same_length _ _ _ _ _ _ (wf_rank _ W) Hn) as [e He].
    assert (Hleg : In (n, e) (tlegs t)) by (apply (nth_error_In _ index); now apply combine_nth_some).
    rewrite (proj2 (name_index (t_names t) n index (wf_nodup _ W)) Hn).
    destruct (same_shape_ok (env_junk E) t W) as [r0 [-> [Wr [Nr [Er Br]]]]]. cbn [bind].
    change (foldM _ (t_blocks t) (t_blocks r0)) with (foldM (mstep t spectrum index dd division) (t_blocks t) (t_blocks r0)).
    assert (Hkey : forall key b, In (key, b) (t_blocks t) -> exists s d, nth_error key index = Some s /\ mfind s (emap e) = Some d).
    { intros key b Hin. assert (Hb : mfind key (c_blocks (t_core t)) = Some b) by (apply In_mfind; auto; apply wf_blocks_sorted; apply W).
      destruct (wf_find_block _ _ _ (wf_tcore _ W) Hb) as [_ [ds [Hds _]]]. fold (t_edges t) in Hds. apply dims_of_mem in Hds.
      assert (HLk : length (maps_of (t_edges t)) = length key) by (eapply Forall2_len; eauto). unfold maps_of in HLk. rewrite map_length in HLk.
      destruct (nth_same_length _ _ _ _ _ _ HLk He) as [s Hs]. exists s. pose proof (Forall2_nth_error _ _ _ _ _ Hds index (emap e) s) as Hm. unfold maps_of in Hm. rewrite nth_error_map, He in Hm.
      specialize (Hm eq_refl Hs). unfold mmem in Hm. destruct (mfind s (emap e)) as [d|]; [eauto|discriminate]. }
    destruct (foldM_blocks (mstep t spectrum index dd division) (fun k => k)
      (fun key b d => exists s vec, nth_error key index = Some s /\ mfind (turn dd s) spectrum = Some vec /\
         forall (pt : list entry) ds x, map fst pt = key -> dims_of (maps_of (t_edges t)) key = Some ds -> Forall2 lt (map snd pt) ds -> nth_error b (row_major ds (map snd pt)) = Some x ->
           exists v, nth_error vec (snd (nth index pt (szero, 0))) = Some v /\ nth_error d (row_major ds (map snd pt)) = Some (rmul x (weight division v)))
      (t_blocks t) (t_blocks r0)) as [bs [F1 [F2 [F3 [F4 F5]]]]].
    - intros key b blocks b0 Hin Hf HL. destruct (Hkey key b Hin) as [s [d [Hs Hd]]].
      destruct (Hfit e s d Hleg) as [vec [V1 V2]]; [now apply mfind_In|].
      destruct (proj1 (mstep_ok t spectrum n e index dd division W Hn He key b blocks b0 s Hin Hf HL Hs) d vec Hd V1 V2) as [d' [M1 [M2 M3]]].
      exists d'. split; auto. split; auto. exists s, vec. auto.
    - rewrite map_id. now apply wf_keys_nodup.
    - apply wf_blocks_sorted. apply Wr.
    - intros key b Hin. rewrite Br. exists (repeat (env_junk E) (length b)). split; [|apply repeat_length].
      assert (Hm := In_mfind _ _ _ (wf_blocks_sorted _ (wf_tcore _ W)) Hin). fold (t_blocks t) in Hm. clear - Hm.
      induction (t_blocks t) as [|[k0 b0] l IH]; [discriminate|]. cbn [mfind shape junk_blocks map fst snd] in *. destruct (eqb key k0); [now injection Hm as ->|auto].
    - rewrite F1. cbn [bind]. eexists. split; [reflexivity|].
      assert (Wr' : wf_tensor (mkTensor (t_names r0) (mkCore (t_edges r0) bs))) by (apply reshape_wf; auto).
      split; [exact Wr'|]. split; [exact Nr|]. split; [exact Er|]. intros pos pt Ha Hv.
      destruct (elem_block t pt W Hv) as [ds [b [x [H1 [H2 [H3 [H4 [H5 [H6 H7]]]]]]]]]. exists x.
      destruct (F4 (map fst pt) b) as [d [D1 [s [vec [S1 [S2 S3]]]]]]; [now apply mfind_In|]. destruct (S3 pt ds x eq_refl H1 H2 H6) as [v [V1 V2]].
      assert (Hp : nth_error pt index = Some (coord pos n)).
      { destruct (nth_same_length _ _ _ _ _ _ (assigns_length _ _ _ Ha) Hn) as [p Hp]. rewrite Hp. f_equal. unfold coord. now rewrite (assigns_nth _ _ _ _ _ _ Ha Hn Hp). }
      assert (Hsc : s = fst (coord pos n)) by (rewrite nth_error_map, Hp in S1; now injection S1). subst s.
      exists vec, v. split; [now apply H7|]. split; [exact S2|]. split; [now rewrite (nth_error_nth _ _ _ Hp) in V1|].
      assert (Hv' : valid_pt (t_core (mkTensor (t_names r0) (mkCore (t_edges r0) bs))) pt).
      { destruct Hv as [Hv Hz]. split; auto. cbn [t_core c_edges]. rewrite Er. exact Hv. }
      destruct (elem_block _ pt Wr' Hv') as [ds' [b' [v' [K1 [K2 [K3 [K4 [K5 [K6 K7]]]]]]]]].
      change (t_edges (mkTensor (t_names r0) (mkCore (t_edges r0) bs))) with (t_edges r0) in K1. rewrite Er, H1 in K1. injection K1 as <-.
      change (t_blocks (mkTensor (t_names r0) (mkCore (t_edges r0) bs))) with bs in K3. rewrite D1 in K3. injection K3 as <-. rewrite V2 in K6. injection K6 as <-.
      apply K7. cbn [t_names]. now rewrite Nr.
  Qed.

  Theorem multiple_undo : forall (E E' : @env R) (t : tensor S R) spectrum n c dd, wf_tensor t -> In n (t_names t) -> dir_of c = Some dd -> fits t spectrum n dd ->
    (forall s vec x y, In (s, vec) spectrum -> In x vec -> rmul (rmul y x) (rdiv rone x) = y) ->
    bind (multiple E t spectrum n c false) (fun r => multiple E' r spectrum n c true) = Ok t.
  Proof.
    intros E E' t spectrum n c dd W Hn Hc Hfit Hinv. destruct (multiple_at E t spectrum n c dd false W Hn Hc Hfit) as [r [-> [Wr [Nr [Er Vr]]]]]. cbn [bind].
    assert (Hfit' : fits r spectrum n dd) by (unfold fits; rewrite Nr, Er; exact Hfit).
    destruct (multiple_at E' r spectrum n c dd true Wr ltac:(now rewrite Nr) Hc Hfit') as [r2 [-> [W2 [N2 [E2 V2]]]]]. f_equal. symmetry. apply tensor_ext_at; auto; try congruence.
    intros pos pt Ha Hv. destruct (Vr pos pt Ha Hv) as [x [vec [v [X1 [X2 [X3 X4]]]]]].
    destruct (V2 pos pt) as [x' [vec' [v' [Y1 [Y2 [Y3 Y4]]]]]]; [now rewrite Nr|destruct Hv; split; auto; fold (t_edges r); now rewrite Er|].
    rewrite X1, Y4. f_equal. rewrite X4 in Y1. injection Y1 as <-. rewrite X2 in Y2. injection Y2 as <-. rewrite X3 in Y3. injection Y3 as <-. cbn [weight].
    symmetry. apply (Hinv (turn dd (fst (coord pos n))) vec); [now apply mfind_In|now apply nth_error_In in X3].
  Qed.

  Theorem multiple_bad_direction : forall (E : @env R) (t : tensor S R) spectrum n c division, dir_of c = None ->
    multiple E t spectrum n c division = tat_error "Direction invalid in multiple".
  Proof. intros. unfold multiple. fold (dir_of c). now rewrite H. Qed.

  (** the first block that fails decides *)
  Lemma foldM_throws : forall A B (f : B -> A -> res B) (P : B -> Prop) l x, P x ->
    (forall a y, In a l -> P y -> (exists y', f y a = Ok y' /\ P y') \/ exists ex, f y a = Throw ex) ->
    (exists a, In a l /\ forall y, P y -> exists ex, f y a = Throw ex) -> exists ex, foldM f l x = Throw ex.
  Proof.
    intros A B f P l. induction l as [|a l IH]; intros x Hx Hs [b [Hb Hbad]]; [destruct Hb|]. cbn [foldM].
    destruct (Hs a x (or_introl eq_refl) Hx) as [[y [E Hy]]|[ex E]]; rewrite E; cbn [bind]; [|eauto].
    destruct Hb as [->|Hb]; [destruct (Hbad x Hx) as [ex E']; congruence|]. apply IH; auto; [|eauto]. intros; apply Hs; auto. now right.
  Qed.
  Theorem multiple_misfit : forall (E : @env R) (t : tensor S R) spectrum n c dd division e s d, wf_tensor t -> dir_of c = Some dd ->
    In (n, e) (tlegs t) -> In (s, d) (emap e) -> (forall vec, mfind (turn dd s) spectrum = Some vec -> length vec <> d) ->
    exists ex, multiple E t spectrum n c division = Throw ex.
  Proof.
    intros E t spectrum n c dd division e s d W Hc Hleg Hsd Hbad. unfold multiple. fold (dir_of c). rewrite Hc. assert (Hs := leg_sorted t n e W Hleg).
    apply In_nth_error in Hleg as [index Hi]. apply combine_nth_inv in Hi as [Hn He]. rewrite (proj2 (name_index (t_names t) n index (wf_nodup _ W)) Hn).
    destruct (same_shape_ok (env_junk E) t W) as [r0 [-> [Wr [Nr [Er Br]]]]]. cbn [bind].
    change (foldM _ (t_blocks t) (t_blocks r0)) with (foldM (mstep t spectrum index dd division) (t_blocks t) (t_blocks r0)).
    destruct (foldM_throws _ _ (mstep t spectrum index dd division) (fun blocks : list (list S * list R) => msorted blocks /\ shape blocks = shape (t_blocks t)) (t_blocks t) (t_blocks r0)) as [ex Hex].
    - split; [apply wf_blocks_sorted; apply Wr|]. rewrite Br. unfold shape, junk_blocks. rewrite !map_map. apply map_ext. intros [k b]. cbn. now rewrite repeat_length.
    - intros [key b] blocks Hin [Hso Hsh].
      assert (Hk : exists b0, mfind key blocks = Some b0 /\ length b0 = length b).
      { apply shape_In in Hin. rewrite <- Hsh in Hin. apply in_map_iff in Hin as [[k b0] [Eq Hin]]. injection Eq as -> Eq. exists b0. split; auto. apply In_mfind; auto. }
      destruct Hk as [b0 [Hf HL]].
      assert (Hks : exists s', nth_error key index = Some s').
      { assert (Hb : mfind key (c_blocks (t_core t)) = Some b) by (apply In_mfind; auto; apply wf_blocks_sorted; apply W).
        destruct (wf_find_block _ _ _ (wf_tcore _ W) Hb) as [_ [ds [Hds _]]]. fold (t_edges t) in Hds. apply dims_of_mem in Hds.
        assert (HLk : length (maps_of (t_edges t)) = length key) by (eapply Forall2_len; eauto). unfold maps_of in HLk. rewrite map_length in HLk.
        apply (nth_same_length _ _ _ _ _ _ HLk He). }
      destruct Hks as [s' Hs']. destruct (mstep_ok t spectrum n e index dd division W Hn He key b blocks b0 s' Hin Hf HL Hs') as [G1 G2].
      destruct (mfind s' (emap e)) as [d'|] eqn:Ed; [|right; apply G2; intros; congruence].
      destruct (mfind (turn dd s') spectrum) as [vec|] eqn:Ev; [|right; apply G2; intros; congruence].
      destruct (Nat.eq_dec (length vec) d') as [El|El]; [|right; apply G2; intros; congruence].
      left. destruct (G1 d' vec eq_refl eq_refl El) as [dd' [M1 [M2 _]]]. eexists. split; [exact M1|]. split; [now apply mset_sorted|]. rewrite <- Hsh. apply (mset_shape _ _ b0); auto.
    - destruct (wf_pruned _ (wf_tcore _ W) index e s He) as [key [K1 K2]]; [apply (in_map fst) in Hsd; exact Hsd|].
      apply in_map_iff in K1 as [[k b] [<- K1]]. exists (k, b). split; [exact K1|]. intros blocks [Hso Hsh].
      assert (Hk : exists b0, mfind k blocks = Some b0 /\ length b0 = length b).
      { apply shape_In in K1. fold (t_blocks t) in K1. rewrite <- Hsh in K1. apply in_map_iff in K1 as [[k' b0] [Eq Hin]]. injection Eq as -> Eq. exists b0. split; auto. apply In_mfind; auto. }
      destruct Hk as [b0 [Hf HL]]. apply (proj2 (mstep_ok t spectrum n e index dd division W Hn He k b blocks b0 s K1 Hf HL K2)).
      intros d' vec Hd Hv. rewrite (In_mfind _ _ _ Hs Hsd) in Hd. injection Hd as <-. now apply Hbad.
    - rewrite Hex. cbn [bind]. eauto.
  Qed.
  Theorem multiple_missing_name : forall (E : @env R) (t : tensor S R) spectrum n c dd division, wf_tensor t -> dir_of c = Some dd -> ~ In n (t_names t) ->
    multiple E t spectrum n c division = Ok t.
  Proof.
    intros E t spectrum n c dd division W Hc Hn. unfold multiple. fold (dir_of c). rewrite Hc. rewrite name_index_none; auto. apply W.
  Qed.
End Multiple.
