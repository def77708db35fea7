(** Spectra in text, and tensors of rank zero with pairs as charges. *)
From Coq Require Import String.
From Coq Require Import List Bool Arith ZArith Lia.
From Verif Require Import Base.Outcome Base.SMap Model.Symmetry Model.Edge Model.Core Model.Names Model.Text Spec.Blocks Spec.Binary Spec.Text.
From Verif Require Import Proof.SymmetryFacts Proof.LoopFacts Proof.CoreFacts Proof.ElemFacts Proof.BinaryFacts Proof.BinaryTensor Proof.TextFacts Proof.TextTensor Proof.TextKinds.
Import ListNotations.

(** ** spectra *)
Section Spectra.
  Context {S R : Type} {SS : Sym S} {SL : SymLaws S} {ST : SymText S} {RT : ScalarText R}.
  Hypothesis sym : @is_nosym S SS = false.
  Variable junk : R.
  Definition spectra_alike (v v' : list (S * list R)) : Prop := Forall2 (fun kl kl' => fst kl = fst kl' /\ Forall2 same_text (snd kl) (snd kl')) v v'.
  Lemma spectrum_back : forall colour origin v, ~ In colon origin -> hd_error colour <> Some close_map -> msorted v ->
    (forall k l, In (k, l) v -> forall r, scan_charge (ahead ((colour ++ print_charge k) ++ origin ++ colon :: r)) = Ok (k, ahead (origin ++ colon :: r))) ->
    (forall k l, In (k, l) v -> exists c r, print_charge k = c :: r /\ c <> close_map) ->
    (forall k l x, In (k, l) v -> In x l -> readable x) ->
    exists shown, show_singular colour origin v = Ok shown /\
    forall fuel, length shown <= fuel -> exists v', spectra_alike v v' /\ scans (scan_singular fuel junk) shown v'.
  Proof.
    intros colour origin v Ho Hc Hs Hk Hst Hr. unfold show_singular, scan_singular. rewrite sym. eexists; split; [reflexivity|]. intros fuel Hf.
    assert (L : length v <= fuel) by (pose proof (print_map_count (fun k => colour ++ print_charge k ++ origin) (@print_block R RT) v); lia).
    assert (B : forall k l, In (k, l) v -> exists l', Forall2 same_text l l' /\ scans (scan_block fuel junk) (print_block l) l').
    { intros k l Hkl. destruct (block_back fuel junk l (fun x => Hr k l x Hkl)) as [l' [H1 H2]].
      - pose proof (print_list_count print_scalar l). pose proof (print_map_part (fun k => colour ++ print_charge k ++ origin) print_block v k l Hkl). unfold print_block in *. lia.
      - exists l'. split; [exact H1|]. intro r. pose proof (H2 [] (fun x => x) r) as H3. exact H3. }
    assert (G : exists v', Forall2 (fun kl kl' => fst kl = fst kl' /\ Forall2 same_text (snd kl) (snd kl') /\ scans (scan_block fuel junk) (print_block (snd kl)) (snd kl')) v v').
    { clear - B. induction v as [|[k l] v IH]; [exists []; constructor|]. destruct IH as [v' Hv]; [intros; eapply B; right; eassumption|].
      destruct (B k l (or_introl eq_refl)) as [l' [H1 H2]]. exists ((k, l') :: v'). constructor; auto. }
    destruct G as [v' G]. exists v'. split.
    { clear - G. induction G as [|a b v v' [H1 [H2 _]] G IH]; constructor; auto. }
    intro r.
    assert (X : forall (f g : S -> text) v, (forall k, f k = g k) -> print_map f (@print_block R RT) v = print_map g print_block v).
      { intros f g w E. unfold print_map. f_equal. f_equal. f_equal. apply map_ext. intro. now rewrite E. }
    rewrite (X (fun k => colour ++ print_charge k ++ origin) (fun k => (colour ++ print_charge k) ++ origin)) by (intro; now rewrite app_assoc).
    pose proof (scan_map_back scan_charge (fun _ : option (list R) => scan_block fuel junk) (fun k => colour ++ print_charge k) origin print_block v v' fuel []) as M.
    cbn [app] in M. apply M; auto.
    - assert (G2 : forall w w', Forall2 (fun kl kl' : S * list R => fst kl = fst kl' /\ Forall2 same_text (snd kl) (snd kl') /\ scans (scan_block fuel junk) (print_block (snd kl)) (snd kl')) w w' ->
          (forall k l, In (k, l) w -> In (k, l) v) ->
          Forall2 (fun kv kv' => fst kv = fst kv' /\ (forall r, scan_charge (ahead ((colour ++ print_charge (fst kv)) ++ origin ++ colon :: r)) = Ok (fst kv, ahead (origin ++ colon :: r))) /\
            (option (list R) -> scans_before (fun c => c = comma \/ c = close_map) (scan_block fuel junk) (print_block (snd kv)) (snd kv'))) w w').
        { intros w w' Hw. induction Hw as [|[k l] kl' w w' [H1 [H2 H3]] Hw IH]; intro Hin; constructor.
          - split; [exact H1|]. split; [intro r0; apply (Hk k l); apply Hin; now left|]. intros _. now apply scans_any.
          - apply IH. intros. apply Hin. now right. }
        now apply G2.
    - intros k l Hkl. destruct colour as [|c0 colour]; [|exact Hc]. destruct (Hst k l Hkl) as [c [r0 [E N]]]. cbn [app]. rewrite E. cbn [app hd_error]. congruence.
    - unfold msorted in *. replace (map fst v') with (map fst v); [exact Hs|]. clear - G. induction G as [|a b v v' [H1 _] G IH]; [reflexivity|]. cbn [map]. congruence.
  Qed.
  (** a charge that is a number, behind the colour: the key cannot be read, and then the list of numbers never ends *)
  Lemma spectrum_lost : forall (convert : option Z -> S * bool) old a, scan_charge = scan_number convert old -> convert None = (a, false) -> (forall x : R, stuck (scan_scalar x)) ->
    forall v, v <> [] -> exists shown, show_singular console_yellow console_origin v = Ok shown /\ forall fuel rest, scan_singular fuel junk (ahead (shown ++ rest)) = OutOfFuel.
  Proof.
    intros convert old a Hscan Hc Hstuck v Hv. unfold show_singular, scan_singular. rewrite sym. eexists; split; [reflexivity|]. intros fuel rest.
    destruct v as [|[k l] v]; [now destruct Hv|]. set (shown := print_map _ _ _ ++ rest).
    assert (E : exists r, shown = open_map :: escape :: r) by (unfold shown, print_map; cbn [map fst snd]; destruct v; cbn [map join app]; rewrite <- ?app_assoc; cbn [app]; eexists; reflexivity).
    destruct E as [r ->]. unfold scan_map. change (ignore open_map (ahead (open_map :: escape :: r))) with (ahead (escape :: r)).
    change (peek (ahead (escape :: r))) with (Some escape, ahead (escape :: r)). change (is close_map (Some escape)) with false. cbn match.
    destruct fuel as [|fuel]; [reflexivity|]. cbn [map_loop]. rewrite Hscan.
    assert (T : scan_number convert old (ahead (escape :: r)) = Ok (a, mkIn (escape :: r) false true)).
    { unfold scan_number. cbn [good ahead at_eof failed negb andb left_over]. change (skip_spaces (escape :: r)) with (escape :: r). cbn match.
      assert (T : take_integer (escape :: r) = (None, escape :: r)) by (unfold take_integer; change (Nat.eqb escape minus) with false; change (Nat.eqb escape plus) with false; cbn match; cbn [take_digits digit escape]; destruct (take_digits r); reflexivity).
      rewrite T, Hc. reflexivity. }
    rewrite T. cbn [bind fst snd]. unfold scan_block, scan_list.
    assert (F : failed (ignore open_list (ignore colon (mkIn (escape :: r) false true))) = true) by reflexivity.
    revert F. generalize (ignore open_list (ignore colon (mkIn (escape :: r) false true))). intros s F. unfold peek, good. rewrite F, andb_false_r. cbn [is].
    rewrite list_loop_stuck; [reflexivity|apply Hstuck|reflexivity].
  Qed.
End Spectra.
Arguments spectra_alike {S R RT}.

Lemma pair_stuck : forall {A} (scan : scanner A), stuck scan -> stuck (scan_pair scan).
Proof.
  intros A scan H s Hs. unfold scan_pair. destruct (scan_number_stuck (fun v => let (z, ok) := to_signed 16 v in (to_fermi z, ok)) (to_fermi 0) (ignore open_pair s) (ignore_failed _ _ Hs)) as [f [s1 [E1 F1]]].
  change (scan_short (to_fermi 0) (ignore open_pair s) = Ok (f, s1)) in E1. rewrite E1. cbn [bind fst snd].
  destruct (H (ignore comma s1) (ignore_failed _ _ F1)) as [z [s2 [E2 F2]]]. rewrite E2. cbn [bind fst snd]. eexists; eexists. split; [reflexivity|]. now apply ignore_failed.
Qed.
(** no bracket follows: the pair is not found and the stream has failed *)
Lemma pair_not_found : forall {A} (scan : scanner A), stuck scan -> forall l, ~ In open_pair l -> exists x s, scan_pair scan (ahead l) = Ok (x, s) /\ failed s = true.
Proof.
  intros A scan H l Hl. unfold scan_pair. rewrite ignore_none by exact Hl.
  change (scan_short (to_fermi 0) (mkIn [] true false)) with (Ok (to_fermi 0, mkIn [] true true) : res (fermi16 * input)). cbn [bind fst snd].
  destruct (H (ignore comma (mkIn [] true true)) eq_refl) as [z [s2 [E2 F2]]]. rewrite E2. cbn [bind fst snd]. eexists; eexists. split; [reflexivity|]. now apply ignore_failed.
Qed.

(** a symmetric number (a tensor of rank zero) with charges that are pairs *)
Section Zero.
  Context {A R : Type} {SS : Sym (fermi16 * A)} {SL : SymLaws (fermi16 * A)} {ST : SymText (fermi16 * A)} {RT : ScalarText R} {ok : fermi16 * A -> Prop} {TL : SymTextLaws (fermi16 * A) ok}.
  Variable scan : scanner A.
  Hypothesis pairs : @scan_charge _ ST = scan_pair scan.
  Hypothesis scan_stuck : stuck scan.
  Hypothesis sym : @is_nosym (fermi16 * A) SS = false.
  Lemma number_lost : forall (junk : R) text_of intern (t : tensor (fermi16 * A) R) x, wf_tensor t -> interned text_of intern [] [] -> t_names t = [] -> t_blocks t = [([], [x])] ->
    printable ok t -> ~ In open_pair (print_scalar x) ->
    exists shown, show_tensor console_yellow console_origin text_of t = Ok shown /\
    forall fuel rest, length shown <= fuel -> ~ In open_pair rest -> scan_tensor fuel junk intern (ahead (shown ++ rest)) = OutOfFuel.
  Proof.
    intros junk text_of intern t x W Hi Hn Hb Hp Hx. assert (Hd : has_dimensions t) by (intro N; congruence). rewrite <- Hn in Hi.
    assert (Rn : readable_names []) by (split; [intros y []|discriminate]).
    exists (tensor_text console_yellow console_origin [] t). split; [apply show_ok; auto; apply Hi|]. intros fuel rest Hf Hrest.
    assert (PB : @is_nosym (fermi16 * A) SS = true -> @is_fermi (fermi16 * A) SS = false) by congruence.
    destruct (scan_head (fun _ => TL) PB console_yellow console_origin fuel junk text_of intern t [] W Hd Hi Rn Hp Hf) as [Hf' Hhead].
    rewrite Hhead. clear Hhead. unfold scan_blocks, blocks_text in *. rewrite sym, Hb in *.
    unfold print_map, key_text, print_list. cbn [map join app fst snd]. unfold print_block, print_list. cbn [map join]. unfold scan_map.
    set (l := (close_list :: console_origin ++ colon :: (open_list :: print_scalar x ++ [close_list]) ++ [close_map]) ++ close_map :: rest).
    match goal with |- context [ahead ?y] => replace y with (open_map :: console_yellow ++ open_list :: l) by (unfold l; do 6 (cbn [app]; rewrite <- ?app_assoc); reflexivity) end.
    change (ignore open_map (ahead (open_map :: console_yellow ++ open_list :: l))) with (ahead (console_yellow ++ open_list :: l)).
    change (peek (ahead (console_yellow ++ open_list :: l))) with (Some escape, ahead (console_yellow ++ open_list :: l)). change (is close_map (Some escape)) with false. cbn match.
    destruct fuel as [|fuel]; [cbn in Hf; lia|]. cbn [map_loop]. rewrite colour_peek, pairs.
    destruct (pair_not_found scan scan_stuck (51 :: 51 :: 109 :: 91 :: l)) as [y [s [E F]]].
    { intro H. repeat (destruct H as [H|H]; [discriminate H|]). unfold l in H. do 6 (rewrite ?in_app_iff in H; cbn [In] in H).
      assert (H0 : ~ In open_pair console_origin) by (vm_compute; intuition discriminate).
      unfold close_list, colon, open_list, close_map, open_pair in *. intuition discriminate. }
    rewrite (list_loop_breaks (scan_pair scan) y _ s (pair_stuck scan scan_stuck) E F). reflexivity.
  Qed.
End Zero.

(** spectra with pairs *)
Lemma spectrum_pairs : forall (A R : Type) (SS : Sym (fermi16 * A)), SymLaws (fermi16 * A) -> forall (ST : SymText (fermi16 * A)) (RT : ScalarText R) (scan : scanner A) (print : A -> text),
  @is_nosym (fermi16 * A) SS = false -> @scan_charge _ ST = scan_pair scan -> @print_charge _ ST = print_pair print ->
  forall (junk : R) (v : list (fermi16 * A * list R)), msorted v ->
  (forall k l, In (k, l) v -> scans_before (fun c => is_digit c = false) scan (print (snd k)) (snd k)) ->
  (forall k l x, In (k, l) v -> In x l -> readable x) ->
  exists shown, show_singular console_yellow console_origin v = Ok shown /\
  forall fuel, length shown <= fuel -> exists v', spectra_alike v v' /\ scans (scan_singular fuel junk) shown v'.
Proof.
  intros A R SS SL ST RT scan print sym Hs Hp junk v Hv Hk Hr. apply spectrum_back; auto.
  - apply no_colon_origin.
  - discriminate.
  - intros k l Hkl r. rewrite Hs, Hp, <- app_assoc. apply scan_pair_back; [now apply (Hk k l)|]. vm_compute. intuition discriminate.
  - intros k l Hkl. rewrite Hp. eexists; eexists. split; [reflexivity|discriminate].
Qed.
Lemma spectrum_FermiZ2 : forall (R : Type) (RT : ScalarText R) (junk : R) (v : list (fermi16 * bool * list R)), msorted v -> (forall k l x, In (k, l) v -> In x l -> readable x) ->
  exists shown, show_singular console_yellow console_origin v = Ok shown /\
  forall fuel, length shown <= fuel -> exists v', spectra_alike v v' /\ scans (scan_singular fuel junk) shown v'.
Proof. intros R RT junk v Hv Hr. apply (spectrum_pairs bool R Sym_FermiZ2 _ SymText_FermiZ2 _ (scan_bool false) print_bool eq_refl eq_refl eq_refl); auto. intros. apply scan_bool_back. Qed.
Lemma spectrum_FermiU1 : forall (R : Type) (RT : ScalarText R) (junk : R) (v : list (fermi16 * Z * list R)), msorted v -> (forall k l, In (k, l) v -> fits_int (snd k)) ->
  (forall k l x, In (k, l) v -> In x l -> readable x) ->
  exists shown, show_singular console_yellow console_origin v = Ok shown /\
  forall fuel, length shown <= fuel -> exists v', spectra_alike v v' /\ scans (scan_singular fuel junk) shown v'.
Proof. intros R RT junk v Hv Hk Hr. apply (spectrum_pairs Z R Sym_FermiU1 _ SymText_FermiU1 _ (scan_int 0) print_integer eq_refl eq_refl eq_refl); auto. intros. apply scan_int_back. eapply Hk; eassumption. Qed.
