(** operator() of the auxiliaries system. *)
From Coq Require Import String Ascii List Bool Arith Lia Permutation.
From Verif Require Import Base.Outcome Base.SMap Model.Symmetry Model.Edge Model.Core Model.EdgeOperator Model.Contract Model.Misc Model.Qr Model.Svd Model.Auxiliaries
  Spec.Blocks Spec.Relabel Spec.Contract Spec.Plain Spec.Lapack Spec.Grid Spec.SquareLattice Spec.Factor Spec.Truncate Spec.Spectrum Spec.Svd Proof.LoopFacts Proof.SumFacts Proof.CoreFacts Proof.ElemFacts Proof.PlainFacts Proof.PlainTools Proof.SumBonds Proof.LineMath Proof.LineTensor Proof.StripTensor Proof.StripFold Proof.StripAmp Proof.StackTensor Proof.AroundTensor Proof.GridSum Proof.LatticeTensor.
Import ListNotations.

Section Amplitude.
  Context {R V : Type} {RR : Scalar R}.
  Notation tens := (tensor unit R).
  Hypotheses (EA : exact_arithmetic R) (MA : associative_product R) (MD : distributive_product R).
  Variables (E : @env R) (J : internal) (Iq : qr_names) (Is : svd_names) (L : qr_lapack R).
  Variables (gesvd : nat -> nat -> list R -> bool * (list V * list R * list R)) (vzero vjunk : V) (greater : V -> V -> bool) (of_real : V -> R).
  Hypotheses (HJ : NoDup [i_contract_0 J; i_contract_1 J; i_contract_2 J]) (HN : own_names Iq Is) (HL : qr_sound L) (HS : svd_sound of_real vzero greater gesvd) (HO : strict_order greater).
  Variables (M N cut : nat) (dim : bond -> nat) (site : nat -> nat -> tens).
  Hypotheses (Hsite : forall i j, i < M -> j < N -> fits_site M N dim i j (site i j)) (Hcut : 0 < cut).
  Notation lattice := (lattice_of M N site).
  Notation fine := (fine L gesvd).
  Implicit Types t e : tens.

  Lemma fine_unless : forall (A : Type) (x : res (A * bool)) (P Q : A -> Prop), fine x P Q -> unless_reported L gesvd (fun a => P a /\ Q a) x.
  Proof. intros A x P Q [[msg [-> H]]|[a [w [-> [H1 [H2 H3]]]]]]; [exact H|]. destruct w; cbn; auto. Qed.
  Lemma unless_weaken : forall (A : Type) (x : res (A * bool)) (P Q : A -> Prop), (forall a, P a -> Q a) -> unless_reported L gesvd P x -> unless_reported L gesvd Q x.
  Proof. intros A [[a [|]]|[| | |]| |] P Q H; cbn; auto. Qed.

  (** ** lines of the lattice *)
  Lemma nth_seq_map : forall (A : Type) (f : nat -> A) k n, k < n -> nth_error (map f (seq 0 n)) k = Some (f k).
  Proof.
    intros A f k n H. rewrite nth_error_map. assert (G : forall n s k, k < n -> nth_error (seq s n) k = Some (s + k)).
    { induction n0 as [|n0 IH]; intros s k0 Hk; [lia|]. destruct k0 as [|k0]; cbn; [f_equal; lia|]. rewrite IH by lia. f_equal. lia. }
    now rewrite (G n 0 k H).
  Qed.
  Lemma site_at_ok : forall i j, i < M -> j < N -> site_at lattice i j = Ok (site i j).
  Proof. intros i j Hi Hj. unfold site_at, lattice_of. rewrite nth_seq_map by exact Hi. cbn [get_or_ub bind]. rewrite nth_seq_map by exact Hj. reflexivity. Qed.
  Lemma mapM_ok : forall (A B : Type) (f : A -> res B) (g : A -> B) l, (forall x, In x l -> f x = Ok (g x)) -> mapM f l = Ok (map g l).
  Proof. intros A B f g. induction l as [|x l IH]; intro H; [reflexivity|]. cbn [mapM map]. rewrite H by (now left). cbn [bind]. rewrite IH by (intros; apply H; now right). reflexivity. Qed.
  Lemma row_is : forall i, i < M -> row N lattice i = Ok (line_of N site i).
  Proof. intros i Hi. unfold row, line_of. apply mapM_ok. intros j Hj. apply in_seq in Hj. apply site_at_ok; lia. Qed.
  Definition turned (j i : nat) : tens := site i j.
  Lemma column_is : forall j, j < N -> column M lattice j = Ok (line_of M turned j).
  Proof. intros j Hj. unfold column, line_of, turned. apply mapM_ok. intros i Hi. apply in_seq in Hi. apply site_at_ok; lia. Qed.

  Notation around_line F m n T k := (around_line E J Iq Is L gesvd vzero vjunk greater of_real F cut m n T k).
  Lemma around_row_is : forall i, i < M -> around_row E J Iq Is L gesvd vzero vjunk greater of_real M N cut lattice i = around_line Fu M N site i.
  Proof.
    intros i Hi. unfold around_row, up_to_down, down_to_up, LatticeTensor.around_line, around.
    rewrite (mapM_ok _ _ (row N lattice) (line_of N site) (seq 0 i)) by (intros k Hk; apply in_seq in Hk; apply row_is; lia).
    rewrite (mapM_ok _ _ (row N lattice) (line_of N site) (rev (seq (1 + i) (M - (1 + i))))) by (intros k Hk; apply in_rev, in_seq in Hk; apply row_is; lia).
    rewrite (row_is i Hi), map_rev. reflexivity.
  Qed.
  Lemma around_column_is : forall j, j < N -> around_column E J Iq Is L gesvd vzero vjunk greater of_real M N cut lattice j = around_line Fl N M turned j.
  Proof.
    intros j Hj. unfold around_column, left_to_right, right_to_left, LatticeTensor.around_line, around.
    rewrite (mapM_ok _ _ (column M lattice) (line_of M turned) (seq 0 j)) by (intros k Hk; apply in_seq in Hk; apply column_is; lia).
    rewrite (mapM_ok _ _ (column M lattice) (line_of M turned) (rev (seq (1 + j) (N - (1 + j))))) by (intros k Hk; apply in_rev, in_seq in Hk; apply column_is; lia).
    rewrite (column_is j Hj), map_rev. reflexivity.
  Qed.

  (** ** edges *)
  Definition vrow (k p : nat) : option nat := match k with 0 => None | S k' => if k <? M then Some (dim (Below k' p)) else None end.
  Definition hrow (k p : nat) : option nat := match p with 0 => None | S p' => if p <? N then Some (dim (Right_of k p')) else None end.
  Lemma only_four : forall i j t n, fits_site M N dim i j t -> ~ In n [nm Up 0; nm Down 0; nm Lft 0; nm Rgt 0] -> dimension t n = None.
  Proof. intros i j t n F H. destruct (dimension t n) eqn:D; [|reflexivity]. exfalso. apply H, (f_only _ _ _ _ _ _ F). apply dimension_named; [exact (f_wf _ _ _ _ _ _ F)|]. now rewrite D. Qed.
  Lemma slot_four : forall t K, (forall n, ~ In n [nm Up 0; nm Down 0; nm Lft 0; nm Rgt 0] -> dimension t n = None) -> (forall n, ~ In n [nm Up 0; nm Down 0; nm Lft 0; nm Rgt 0] -> slot K n = None) ->
    Forall (fun n => dimension t n = slot K n) [nm Up 0; nm Down 0; nm Lft 0; nm Rgt 0] -> forall n, dimension t n = slot K n.
  Proof.
    intros t K H1 H2 H n. destruct (in_dec Nat.eq_dec n [nm Up 0; nm Down 0; nm Lft 0; nm Rgt 0]) as [I|I]; [|now rewrite H1, H2]. rewrite Forall_forall in H. now apply H.
  Qed.
  Lemma sk_only : forall F u d l r n, ~ In n [nm Up 0; nm Down 0; nm Lft 0; nm Rgt 0] -> slot (sk F u d l r) n = None.
  Proof.
    intros F u d l r n H. unfold slot. destruct (mfind n (sk F u d l r)) eqn:D; [|reflexivity]. exfalso. apply H. apply mfind_In in D. apply (in_map fst) in D.
    destruct F; cbn in *; intuition.
  Qed.
  Lemma fits_row : forall i j t, i < M -> j < N -> fits_site M N dim i j t <-> site_ok Fu vrow hrow i j t.
  Proof.
    intros i j t Hi Hj. unfold site_ok. split.
    - intros F. constructor; [exact (f_wf _ _ _ _ _ _ F)|exact (f_block _ _ _ _ _ _ F)|]. apply slot_four; [intros n; exact (only_four i j t n F)|intro n; apply sk_only|].
      destruct F as [_ _ Fu' Fd' Fl' Fr' _]. repeat constructor.
      + rewrite Fu'. destruct i; [reflexivity|]. cbn [sk slot vrow]. change (slot _ _) with (vrow (S i) j). unfold vrow. now rewrite (proj2 (Nat.ltb_lt (S i) M) Hi).
      + rewrite Fd'. reflexivity.
      + rewrite Fl'. destruct j; [reflexivity|]. change (slot _ _) with (hrow i (S j)). unfold hrow. now rewrite (proj2 (Nat.ltb_lt (S j) N) Hj).
      + rewrite Fr'. reflexivity.
    - intros [W B D]. constructor; auto.
      + rewrite D. change (slot _ _) with (vrow i j). unfold vrow. destruct i; [reflexivity|]. now rewrite (proj2 (Nat.ltb_lt (S i) M) Hi).
      + rewrite D. reflexivity.
      + rewrite D. change (slot _ _) with (hrow i j). unfold hrow. destruct j; [reflexivity|]. now rewrite (proj2 (Nat.ltb_lt (S j) N) Hj).
      + rewrite D. reflexivity.
      + intros n Hn. destruct (in_dec Nat.eq_dec n [nm Up 0; nm Down 0; nm Lft 0; nm Rgt 0]) as [I|I]; [exact I|]. exfalso. apply dimension_named in Hn; [|exact W]. apply Hn. rewrite D. now apply sk_only.
  Qed.
  Lemma fits_column : forall i j t, i < M -> j < N -> fits_site M N dim i j t <-> site_ok Fl (fun k p => hrow p k) (fun k p => vrow p k) j i t.
  Proof.
    intros i j t Hi Hj. rewrite fits_row by assumption. unfold site_ok. split; intro H; apply (has_same _ _ _ H); cbn; repeat constructor.
  Qed.
  Lemma times_ones : forall n, times (repeat None n) = 1.
  Proof. induction n as [|n IH]; [reflexivity|]. unfold times in *. cbn. rewrite Nat.add_0_r. exact IH. Qed.
  Lemma skipn_map : forall (A B : Type) (f : A -> B) k l, skipn k (map f l) = map f (skipn k l).
  Proof. intros A B f. induction k as [|k IH]; intros [|x l]; cbn; auto. Qed.
  Lemma skipn_seq : forall k s n, skipn k (seq s n) = seq (s + k) (n - k).
  Proof. induction k as [|k IH]; intros s n; [cbn; now rewrite Nat.add_0_r, Nat.sub_0_r|]. destruct n as [|n]; cbn [seq skipn]; [reflexivity|]. rewrite IH. f_equal; lia. Qed.
  Lemma enough_gen : forall m n (v : nat -> nat -> option nat) (dd : nat -> nat -> nat), (forall k p, v k p = match k with 0 => None | S k' => if k <? m then Some (dd k' p) else None end) ->
    (forall i j, 1 + i < m -> fold_right Nat.mul 1 (map (fun p => dd i p) (seq (1 + j) (n - (1 + j)))) <= cut) -> forall k, enough cut (levels n v k).
  Proof.
    intros m n v dd Hv H k q. unfold levels. rewrite skipn_map, skipn_seq. cbn [Nat.add].
    assert (C : (forall p, v k p = None) \/ exists k', 1 + k' < m /\ forall p, v k p = Some (dd k' p)).
    { destruct k as [|k]; [left; intro p; apply Hv|]. destruct (Nat.ltb_spec (S k) m).
      - right. exists k. split; [assumption|]. intro p. rewrite Hv. now rewrite (proj2 (Nat.ltb_lt (S k) m)).
      - left. intro p. rewrite Hv. now rewrite (proj2 (Nat.ltb_ge (S k) m)). }
    destruct C as [C|[k' [Hk C]]].
    - replace (map (v k) _) with (repeat (@None nat) (n - S q)); [rewrite times_ones; lia|]. rewrite (map_ext _ _ C). generalize (S q) at 2 as s. generalize (n - S q) as r. induction r as [|r IH]; intro s; [reflexivity|]. cbn. f_equal. apply IH.
    - rewrite (map_ext _ _ C). unfold times, sizes. rewrite map_map. cbn [size]. exact (H k' q Hk).
  Qed.
  Lemma network_ext : forall m n d d' (f g : nat -> nat -> nat -> nat -> nat -> nat -> R), (forall b, inner m n b = true -> d b = d' b) -> (forall i j u dd l r, f i j u dd l r = g i j u dd l r) -> network_sum m n d f = network_sum m n d' g.
  Proof.
    intros m n d d' f g Hd H. unfold network_sum. rewrite (Over_dim d d') by (intros b Hb; now apply Hd, in_bonds). apply (Over_ext bond_eqb bond_spec). intros q _. f_equal. apply map_ext. intros [i j]. unfold site_factor. apply H.
  Qed.
  Lemma row_network : forall G, network_sum M N (dims vrow hrow) (fun k p => sf Fu (G k p)) = network_sum M N dim (fun i j => elements (G i j)).
  Proof.
    intro G. apply network_ext; [|reflexivity]. intros [i j|i j] Hb; cbn [inner] in Hb; apply andb_true_iff in Hb; destruct Hb as [H1 H2]; unfold dims, vrow, hrow; cbn [size].
    - change (S j) with (1 + j). now rewrite H2.
    - change (S i) with (1 + i). now rewrite H1.
  Qed.
  Lemma frame_value : forall t u d l r, sf Fl t l r u d = elements t u d l r.
  Proof.
    intros t u d l r. unfold sf, sa, elements, value. f_equal. apply map_ext. intro n. f_equal. f_equal. unfold index.
    cbn [fup fdown fleft fright]; unfold nm, code; cbn [mfind Nat.mul Nat.add]; destruct n as [|[|[|[|n]]]]; reflexivity.
  Qed.
  Lemma column_network : forall G : nat -> nat -> tens, network_sum N M (dims (fun k p => hrow p k) (fun k p => vrow p k)) (fun k p => sf Fl (G p k)) = network_sum M N dim (fun i j => elements (G i j)).
  Proof.
    intro G. rewrite <- (network_mirror EA MA (fun i j => elements (G i j)) M N dim). apply network_ext.
    - intros [i j|i j] Hb; cbn [inner] in Hb; apply andb_true_iff in Hb; destruct Hb as [H1 H2]; unfold dims, vrow, hrow, mirror; cbn [size].
      + change (S j) with (1 + j). now rewrite H2.
      + change (S i) with (1 + i). now rewrite H1.
    - intros. apply frame_value.
  Qed.
  Lemma put_turned : forall i j x k p, put turned j i x k p = put_site site i j x p k.
  Proof. intros. unfold put, turned, put_site. now rewrite andb_comm. Qed.

  Lemma enough_rows : rows_within M N dim cut -> forall k, enough cut (levels N vrow k).
  Proof. intro H. apply (enough_gen M N vrow (fun k p => dim (Below k p))); [intros [|k] p; reflexivity|exact H]. Qed.
  Lemma enough_columns : columns_within M N dim cut -> forall k, enough cut (levels M (fun k p => hrow p k) k).
  Proof. intro H. apply (enough_gen N M (fun k p => hrow p k) (fun k p => dim (Right_of p k))); [intros [|k] p; reflexivity|]. intros i j Hi. exact (H j i Hi). Qed.
  Lemma row_sites : forall k p, k < M -> p < N -> site_ok Fu vrow hrow k p (site k p).
  Proof. intros k p Hk Hp. apply fits_row; auto. Qed.
  Lemma column_sites : forall k p, k < N -> p < M -> site_ok Fl (fun k p => hrow p k) (fun k p => vrow p k) k p (turned k p).
  Proof. intros k p Hk Hp. apply fits_column; [exact Hp|exact Hk|]. now apply Hsite. Qed.
  Lemma vM : forall p, vrow M p = None.
  Proof. intros p. unfold vrow. destruct M; [reflexivity|]. now rewrite Nat.ltb_irrefl. Qed.
  Lemma hN : forall k, hrow k N = None.
  Proof. intros k. unfold hrow. destruct N; [reflexivity|]. now rewrite Nat.ltb_irrefl. Qed.
  Lemma inside_ok : forall i j, i < M -> j < N -> inside M N i j = true.
  Proof. intros i j Hi Hj. unfold inside. now rewrite (proj2 (Nat.ltb_lt i M) Hi), (proj2 (Nat.ltb_lt j N) Hj). Qed.

  Notation network G := (network_sum M N dim (fun i j => elements (G i j))).
  Notation model f := (f E J Iq Is L gesvd vzero vjunk greater of_real M N cut lattice).

  Theorem amplitude_0_ok : 0 < M -> 0 < N -> rows_within M N dim cut -> fine (amplitude_0 E J Iq Is L gesvd vzero vjunk greater of_real M N cut lattice) (fun _ => True) (fun v => v = network site).
  Proof.
    intros HM HP Hr. unfold amplitude_0. rewrite (inside_ok 0 0 HM HP), (around_row_is 0 HM). rewrite <- row_network.
    exact (frame_amp0 EA MA MD E J HJ Iq Is L HN HL gesvd vzero vjunk greater of_real HS HO Fu cut M N vrow hrow (fun _ _ => eq_refl) (fun p _ => vM p) (fun _ _ => eq_refl) (fun k _ => hN k) HP (enough_rows Hr) site row_sites 0 HM).
  Qed.
  Theorem amplitude_1_row : forall i j x, i < M -> j < N -> fits_site M N dim i j x -> rows_within M N dim cut ->
    fine (amplitude_1 E J Iq Is L gesvd vzero vjunk greater of_real M N cut lattice false i j x) (fun _ => True) (fun v => v = network (put_site site i j x)).
  Proof.
    intros i j x Hi Hj Hx Hr. unfold amplitude_1. rewrite (inside_ok i j Hi Hj), (around_row_is i Hi). rewrite <- row_network.
    assert (HP : 0 < N) by lia. apply (fits_row i j x Hi Hj) in Hx.
    exact (frame_amp1 EA MA MD E J HJ Iq Is L HN HL gesvd vzero vjunk greater of_real HS HO Fu cut M N vrow hrow (fun _ _ => eq_refl) (fun p _ => vM p) (fun _ _ => eq_refl) (fun k _ => hN k) HP (enough_rows Hr) site row_sites i j x Hi Hj Hx).
  Qed.
  Theorem amplitude_1_column : forall i j x, i < M -> j < N -> fits_site M N dim i j x -> columns_within M N dim cut ->
    fine (amplitude_1 E J Iq Is L gesvd vzero vjunk greater of_real M N cut lattice true i j x) (fun _ => True) (fun v => v = network (put_site site i j x)).
  Proof.
    intros i j x Hi Hj Hx Hr. unfold amplitude_1. rewrite (inside_ok i j Hi Hj), (around_column_is j Hj). rewrite <- column_network.
    assert (HP : 0 < M) by lia. apply (fits_column i j x Hi Hj) in Hx. eapply fine_weaken.
    - exact (frame_amp1 EA MA MD E J HJ Iq Is L HN HL gesvd vzero vjunk greater of_real HS HO Fl cut N M (fun k p => hrow p k) (fun k p => vrow p k) (fun _ _ => eq_refl) (fun p _ => hN p) (fun _ _ => eq_refl) (fun k _ => vM k) HP (enough_columns Hr) turned column_sites j i x Hj Hi Hx).
    - auto.
    - intros v _ ->. apply network_ext; [reflexivity|]. intros. now rewrite put_turned.
  Qed.
  Theorem amplitude_2h_ok : forall i j x y, i < M -> 1 + j < N -> fits_site M N dim i j x -> fits_site M N dim i (1 + j) y -> rows_within M N dim cut ->
    fine (amplitude_2h E J Iq Is L gesvd vzero vjunk greater of_real M N cut lattice i j x y) (fun _ => True) (fun v => v = network (put_site (put_site site i j x) i (1 + j) y)).
  Proof.
    intros i j x y Hi Hj Hx Hy Hr. unfold amplitude_2h. assert (Hj' : j < N) by lia. rewrite (inside_ok i j Hi Hj'), (inside_ok i (1 + j) Hi Hj), (around_row_is i Hi). rewrite <- row_network.
    assert (HP : 0 < N) by lia. apply (fits_row i j x Hi Hj') in Hx. apply (fits_row i (1 + j) y Hi Hj) in Hy.
    exact (frame_amp2 EA MA MD E J HJ Iq Is L HN HL gesvd vzero vjunk greater of_real HS HO Fu cut M N vrow hrow (fun _ _ => eq_refl) (fun p _ => vM p) (fun _ _ => eq_refl) (fun k _ => hN k) HP (enough_rows Hr) site row_sites i j x y Hi Hj Hx Hy).
  Qed.
  Theorem amplitude_2v_ok : forall i j x y, 1 + i < M -> j < N -> fits_site M N dim i j x -> fits_site M N dim (1 + i) j y -> columns_within M N dim cut ->
    fine (amplitude_2v E J Iq Is L gesvd vzero vjunk greater of_real M N cut lattice i j x y) (fun _ => True) (fun v => v = network (put_site (put_site site i j x) (1 + i) j y)).
  Proof.
    intros i j x y Hi Hj Hx Hy Hr. unfold amplitude_2v. assert (Hi' : i < M) by lia. rewrite (inside_ok i j Hi' Hj), (inside_ok (1 + i) j Hi Hj), (around_column_is j Hj). rewrite <- column_network.
    assert (HP : 0 < M) by lia. apply (fits_column i j x Hi' Hj) in Hx. apply (fits_column (1 + i) j y Hi Hj) in Hy. eapply fine_weaken.
    - exact (frame_amp2 EA MA MD E J HJ Iq Is L HN HL gesvd vzero vjunk greater of_real HS HO Fl cut N M (fun k p => hrow p k) (fun k p => vrow p k) (fun _ _ => eq_refl) (fun p _ => hN p) (fun _ _ => eq_refl) (fun k _ => vM k) HP (enough_columns Hr) turned column_sites j i x y Hj Hi Hx Hy).
    - auto.
    - intros v _ ->. apply network_ext; [reflexivity|]. intros. f_equal. unfold put, turned, put_site. rewrite (andb_comm (Nat.eqb i0 j)). now rewrite (andb_comm (Nat.eqb i0 j)).
  Qed.
  Theorem amplitude_ok : forall (l : list (nat * nat * tens)) hint, 0 < M -> 0 < N -> replaceable M N dim l -> lines_within (column_wise l hint) M N dim cut ->
    unless_reported L gesvd (fun v => v = network (replaced site l)) (amplitude E J Iq Is L gesvd vzero vjunk greater of_real M N cut lattice l hint).
  Proof.
    intros l hint HM HP Hl Hw. apply unless_weaken with (P := fun v => True /\ v = network (replaced site l)); [tauto|]. apply fine_unless.
    destruct Hl as [|i j x Hi Hj Hx|i j x y Hi Hj Hx Hy|i j x y Hi Hj Hx Hy]; cbn [amplitude column_wise lines_within] in *.
    - now apply amplitude_0_ok.
    - destruct (Ascii.eqb hint "v"); [now apply amplitude_1_column|now apply amplitude_1_row].
    - rewrite Nat.eqb_refl in *. rewrite Nat.eqb_refl. cbn [andb negb] in *. now apply amplitude_2h_ok.
    - replace (Nat.eqb i (1 + i)) with false in * by (symmetry; apply Nat.eqb_neq; lia). rewrite !Nat.eqb_refl. cbn [andb negb] in *. now apply amplitude_2v_ok.
  Qed.

  (** ** environments *)
  Lemma sizes_of : forall i j, i < M -> j < N -> size (vrow i j) = size_up dim i j /\ size (vrow (S i) j) = size_down M dim i j /\ size (hrow i j) = size_left dim i j /\ size (hrow i (S j)) = size_right N dim i j.
  Proof.
    intros i j Hi Hj. unfold vrow, hrow, size_up, size_down, size_left, size_right. change (1 + i) with (S i). change (1 + j) with (S j). repeat split.
    - destruct i; [reflexivity|]. now rewrite (proj2 (Nat.ltb_lt (S i) M) Hi).
    - now destruct (S i <? M).
    - destruct j; [reflexivity|]. now rewrite (proj2 (Nat.ltb_lt (S j) N) Hj).
    - now destruct (S j <? N).
  Qed.
  Lemma ek_only : forall F u d l r n, ~ In n [nm Up 4; nm Down 4; nm Lft 4; nm Rgt 4] -> slot (ek F u d l r) n = None.
  Proof.
    intros F u d l r n H. unfold slot. destruct (mfind n (ek F u d l r)) eqn:D; [|reflexivity]. exfalso. apply H. apply mfind_In in D. apply (in_map fst) in D.
    destruct F; cbn in *; intuition.
  Qed.
  Lemma ek_fits : forall i j e, i < M -> j < N -> has e (ek Fu (vrow i j) (vrow (S i) j) (hrow i j) (hrow i (S j))) -> faces (site i j) e.
  Proof.
    intros i j e Hi Hj [W B D]. destruct (row_sites i j Hi Hj) as [_ _ DS]. split; [exact W|]. split; [exact B|]. split; [intros [| | |]; rewrite D, DS; reflexivity|].
    intros n Hn. assert (G : In n [nm Up 4; nm Down 4; nm Lft 4; nm Rgt 4]); [|cbn [In] in G; destruct G as [<-|[<-|[<-|[<-|[]]]]]; eexists; reflexivity]. destruct (in_dec Nat.eq_dec n [nm Up 4; nm Down 4; nm Lft 4; nm Rgt 4]) as [I|I]; [exact I|]. exfalso. apply dimension_named in Hn; [|exact W]. apply Hn. rewrite D. now apply ek_only.
  Qed.
  Theorem environment_row : forall i j, i < M -> j < N -> rows_within M N dim cut ->
    fine (environment_1 E J Iq Is L gesvd vzero vjunk greater of_real M N cut lattice false i j) (faces (site i j))
      (fun e => forall x, fits_site M N dim i j x -> put_in M N dim i j e x = network (put_site site i j x)).
  Proof.
    intros i j Hi Hj Hr. unfold environment_1. rewrite (inside_ok i j Hi Hj), (around_row_is i Hi). assert (HP : 0 < N) by lia. eapply fine_weaken.
    - exact (frame_hole EA MA MD E J HJ Iq Is L HN HL gesvd vzero vjunk greater of_real HS HO Fu cut M N vrow hrow (fun _ _ => eq_refl) (fun p _ => vM p) (fun _ _ => eq_refl) (fun k _ => hN k) HP (enough_rows Hr) site row_sites i j Hi Hj).
    - intros e He. now apply ek_fits.
    - intros e _ H x Hx. apply (fits_row i j x Hi Hj) in Hx. specialize (H x Hx). rewrite row_network in H. destruct (sizes_of i j Hi Hj) as [S1 [S2 [S3 S4]]]. rewrite S1, S2, S3, S4 in H. exact H.
  Qed.
  Lemma ek_turn : forall e u d l r, has e (ek Fl u d l r) -> has e (ek Fu l r u d).
  Proof. intros e u d l r H. apply (has_same _ _ _ H). cbn. repeat constructor. Qed.
  Lemma ef_turn : forall e u d l r, ef Fl e u d l r = ef Fu e l r u d.
  Proof.
    intros e u d l r. unfold ef, value. f_equal. apply map_ext. intro n. f_equal. f_equal. unfold index. cbn [fup fdown fleft fright]; unfold nm, code; cbn [mfind Nat.mul Nat.add].
    do 20 (destruct n as [|n]; [reflexivity|]). reflexivity.
  Qed.
  Theorem environment_column : forall i j, i < M -> j < N -> columns_within M N dim cut ->
    fine (environment_1 E J Iq Is L gesvd vzero vjunk greater of_real M N cut lattice true i j) (faces (site i j))
      (fun e => forall x, fits_site M N dim i j x -> put_in M N dim i j e x = network (put_site site i j x)).
  Proof.
    intros i j Hi Hj Hr. unfold environment_1. rewrite (inside_ok i j Hi Hj), (around_column_is j Hj). assert (HP : 0 < M) by lia. eapply fine_weaken.
    - exact (frame_hole EA MA MD E J HJ Iq Is L HN HL gesvd vzero vjunk greater of_real HS HO Fl cut N M (fun k p => hrow p k) (fun k p => vrow p k) (fun _ _ => eq_refl) (fun p _ => hN p) (fun _ _ => eq_refl) (fun k _ => vM k) HP (enough_columns Hr) turned column_sites j i Hj Hi).
    - intros e He. apply ek_fits; auto. exact (ek_turn _ _ _ _ _ He).
    - intros e _ H x Hx. pose proof Hx as Hx'. apply (fits_column i j x Hi Hj) in Hx. specialize (H x Hx).
      replace (network (put_site site i j x)) with (network_sum N M (dims (fun k p => hrow p k) (fun k p => vrow p k)) (fun k' p' => sf Fl (put turned j i x k' p'))).
      + rewrite <- H. destruct (sizes_of i j Hi Hj) as [S1 [S2 [S3 S4]]]. unfold put_in. rewrite <- S1, <- S2, <- S3, <- S4.
        rewrite (pull2 EA). apply Sum_ext; intros l _. rewrite (pull2 EA). apply Sum_ext; intros r _. apply Sum_ext; intros u _. apply Sum_ext; intros d _. rewrite ef_turn, frame_value. reflexivity.
      + rewrite <- column_network. apply network_ext; [reflexivity|]. intros. now rewrite put_turned.
  Qed.
  Theorem environment_ok : forall i j hint, i < M -> j < N -> lines_within (Ascii.eqb hint "v"%char) M N dim cut ->
    unless_reported L gesvd (fun e => faces (site i j) e /\ forall x, fits_site M N dim i j x -> put_in M N dim i j e x = network (put_site site i j x))
      (environment E J Iq Is L gesvd vzero vjunk greater of_real M N cut lattice [(i, j)] hint).
  Proof.
    intros i j hint Hi Hj Hw. apply fine_unless. cbn [environment]. destruct (Ascii.eqb hint "v"); cbn [lines_within] in Hw; [now apply environment_column|now apply environment_row].
  Qed.
  Theorem environment_0_ok : forall hint, 0 < M -> 0 < N -> rows_within M N dim cut ->
    unless_reported L gesvd (fun e => to_scalar e = Ok (network site)) (environment E J Iq Is L gesvd vzero vjunk greater of_real M N cut lattice [] hint).
  Proof.
    intros hint HM HP Hr. apply unless_weaken with (P := fun e => True /\ to_scalar e = Ok (network site)); [tauto|]. apply fine_unless. cbn [environment]. rewrite (inside_ok 0 0 HM HP), (around_row_is 0 HM). rewrite <- row_network.
    exact (frame_strip EA MA MD E J HJ Iq Is L HN HL gesvd vzero vjunk greater of_real HS HO Fu cut M N vrow hrow (fun _ _ => eq_refl) (fun p _ => vM p) (fun _ _ => eq_refl) (fun k _ => hN k) HP (enough_rows Hr) site row_sites 0 HM).
  Qed.

  (** ** requests that are refused *)
  Lemma inside_not : forall i j, ~ (i < M /\ j < N) -> inside M N i j = false.
  Proof. intros i j H. unfold inside. destruct (Nat.ltb_spec i M), (Nat.ltb_spec j N); try reflexivity. exfalso. now apply H. Qed.
  Theorem outside_refused : forall (l : list (nat * nat * tens)) hint, length l <= 2 -> neighbours l -> (exists i j x, In (i, j, x) l /\ ~ (i < M /\ j < N)) ->
    amplitude E J Iq Is L gesvd vzero vjunk greater of_real M N cut lattice l hint = Throw OutOfRange.
  Proof.
    intros l hint Hl Hn [i [j [x [Hin Ho]]]]. apply inside_not in Ho. destruct l as [|[[i1 j1] x1] [|[[i2 j2] x2] [|? ?]]]; [destruct Hin| | |cbn in Hl; lia].
    - destruct Hin as [D|[]]. injection D as -> -> ->. cbn [amplitude]. unfold amplitude_1. now rewrite Ho.
    - cbn [neighbours] in Hn. cbn [amplitude]. destruct Hn as [[-> ->]|[-> ->]].
      + rewrite !Nat.eqb_refl. cbn [andb]. unfold amplitude_2h. destruct Hin as [D|[D|[]]]; injection D as <- <- <-; cbn [Nat.add] in *; rewrite Ho; cbn [negb andb]; [reflexivity|]. now rewrite andb_false_r.
      + replace (Nat.eqb i1 (1 + i1)) with false by (symmetry; apply Nat.eqb_neq; lia). rewrite !Nat.eqb_refl. cbn [andb]. unfold amplitude_2v. destruct Hin as [D|[D|[]]]; injection D as <- <- <-; cbn [Nat.add] in *; rewrite Ho; cbn [negb andb]; [reflexivity|]. now rewrite andb_false_r.
  Qed.
  Theorem scattered_refused : forall (l : list (nat * nat * tens)) hint, 2 < length l \/ ~ neighbours l ->
    exists msg, amplitude E J Iq Is L gesvd vzero vjunk greater of_real M N cut lattice l hint = Throw (NotImplementedError msg).
  Proof.
    intros l hint H. exists "Unsupported replacement style"%string. destruct l as [|[[i1 j1] x1] [|[[i2 j2] x2] [|? ?]]]; cbn [length neighbours] in H; [destruct H as [H|H]; [lia|now destruct H]..| |reflexivity].
    destruct H as [H|H]; [lia|]. cbn [amplitude]. destruct (Nat.eqb_spec i1 i2) as [->|A].
    - destruct (Nat.eqb_spec (1 + j1) j2) as [<-|B]; [exfalso; apply H; left; now split|]. cbn [andb]. replace (Nat.eqb (1 + i2) i2) with false by (symmetry; apply Nat.eqb_neq; lia). now rewrite andb_false_r.
    - cbn [andb]. destruct (Nat.eqb_spec j1 j2) as [->|B]; [|reflexivity]. destruct (Nat.eqb_spec (1 + i1) i2) as [<-|C]; [exfalso; apply H; right; now split|reflexivity].
  Qed.
  Theorem holes_refused : forall (holes : list (nat * nat)) hint,
    (2 <= length holes -> exists msg, environment E J Iq Is L gesvd vzero vjunk greater of_real M N cut lattice holes hint = Throw (NotImplementedError msg)) /\
    (forall i j, holes = [(i, j)] -> ~ (i < M /\ j < N) -> environment E J Iq Is L gesvd vzero vjunk greater of_real M N cut lattice holes hint = Throw OutOfRange).
  Proof.
    intros holes hint. split.
    - intro H. destruct holes as [|[i j] [|h l]]; cbn in H; try lia. eexists. reflexivity.
    - intros i j -> Ho. apply inside_not in Ho. cbn [environment]. unfold environment_1. now rewrite Ho.
  Qed.
End Amplitude.
