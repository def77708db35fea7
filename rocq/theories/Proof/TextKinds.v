(** Text of the different kinds of tensors, with and without colours; complex numbers. *)
From Coq Require Import String.
From Coq Require Import List Bool Arith ZArith Lia.
From Verif Require Import Base.Outcome Base.SMap Model.Symmetry Model.Edge Model.Core Model.Names Model.Text Spec.Blocks Spec.Binary Spec.Text.
From Verif Require Import Proof.SymmetryFacts Proof.LoopFacts Proof.CoreFacts Proof.ElemFacts Proof.BinaryFacts Proof.BinaryTensor Proof.TextFacts Proof.TextTensor.
Import ListNotations.

(** ** complex numbers *)
Lemma complex_readable : forall (F : Type) (FT : RealText F) (ok : F -> Prop), RealTextLaws F ok -> forall re im : F, ok re -> ok im -> @readable (F * F) _ (re, im).
Proof.
  intros F FT ok L re im Hre Him. unfold readable. cbn [print_scalar scan_scalar ScalarText_complex].
  destruct (real_back re Hre) as [y [Y1 [Y2 [Y3 Y4]]]]. destruct (real_back im Him) as [z [Z1 [Z2 [Z3 Z4]]]].
  destruct (is_zero re) eqn:Ere; destruct (is_zero im) eqn:Eim.
  - assert (P : print_complex (re, im) = lit "0") by (unfold print_complex; rewrite Ere, Eim; reflexivity). rewrite !P. split; [exists 48, []; split; [reflexivity|discriminate]|].
    destruct real_zero_back as [w [W1 W2]]. exists (w, real_zero). split; [unfold print_complex; now rewrite W1, real_zero_is|].
    intros junk c r Hc. unfold scan_complex. change (lit "0") with [48]. rewrite (W2 (fst junk) c r Hc). cbn [bind fst snd peek good ahead at_eof failed negb andb left_over].
    destruct Hc as [-> | ->]; reflexivity.
  - assert (P : print_complex (re, im) = print_scalar im ++ [imaginary]) by (unfold print_complex; rewrite Ere, Eim; reflexivity). rewrite !P. split.
    { destruct (real_start im Him) as [c [r [E H]]]. exists c, (r ++ [imaginary]). rewrite E. split; [reflexivity|exact H]. }
    exists (real_zero, z). split; [unfold print_complex; rewrite real_zero_is, Z2; cbn [negb]; now rewrite Z1|].
    intros junk c r Hc. unfold scan_complex. rewrite <- app_assoc. cbn [app]. rewrite (proj1 (Z4 (fst junk)) imaginary) by (unfold imaginary; tauto). reflexivity.
  - assert (P : print_complex (re, im) = print_scalar re ++ []) by (unfold print_complex; rewrite Ere, Eim; reflexivity). rewrite !P. rewrite app_nil_r. split; [apply (real_start re Hre)|].
    exists (y, real_zero). split; [unfold print_complex; rewrite Y2, real_zero_is; cbn [negb]; now rewrite Y1, app_nil_r|].
    intros junk c r Hc. unfold scan_complex. rewrite (proj1 (Y4 (fst junk)) c) by tauto. cbn [bind fst snd peek good ahead at_eof failed negb andb left_over].
    destruct Hc as [-> | ->]; reflexivity.
  - assert (P : print_complex (re, im) = print_scalar re ++ (if is_positive im then [plus] else []) ++ print_scalar im ++ [imaginary]) by (unfold print_complex; rewrite Ere, Eim; reflexivity). rewrite !P. split.
    { destruct (real_start re Hre) as [c [r [E H]]]. rewrite E. eexists; eexists; split; [reflexivity|exact H]. }
    exists (y, z). split; [unfold print_complex; rewrite Y2, Z2, Z3; cbn [negb]; now rewrite Y1, Z1|].
    intros junk c r Hc. unfold scan_complex. rewrite <- !app_assoc. destruct (is_positive im) eqn:Pim.
    + cbn [app]. rewrite (proj1 (Y4 (fst junk)) plus) by (unfold plus; tauto). cbn [bind fst snd peek good ahead at_eof failed negb andb left_over is].
      change (Nat.eqb imaginary plus) with false. change (Nat.eqb plus plus) with true. cbn [orb].
      change (mkIn (plus :: print_scalar im ++ imaginary :: c :: r) false false) with (ahead (plus :: print_scalar im ++ imaginary :: c :: r)).
      pose proof (proj2 (Z4 (fst junk)) eq_refl imaginary (c :: r) eq_refl) as E2. cbn [app] in E2. change 43 with plus in E2. rewrite E2. reflexivity.
    + destruct (real_negative im Him Eim Pim) as [im' E]. cbn [app].
      assert (E2 : print_scalar re ++ print_scalar im ++ imaginary :: c :: r = print_scalar re ++ 45 :: (im' ++ imaginary :: c :: r)) by (rewrite E; reflexivity).
      rewrite E2. rewrite (proj1 (Y4 (fst junk)) 45) by tauto. cbn [bind fst snd peek good ahead at_eof failed negb andb left_over is].
      change (Nat.eqb imaginary 45) with false. change (Nat.eqb plus 45) with false. change (Nat.eqb minus 45) with true. cbn [orb].
      assert (E3 : scan_scalar (fst junk) (ahead (print_scalar im ++ imaginary :: c :: r)) = Ok (z, ahead (imaginary :: c :: r))) by (apply (proj1 (Z4 (fst junk))); unfold imaginary; tauto).
      rewrite E in E3. cbn [app] in E3. rewrite E3. reflexivity.
Qed.

(** ** lists read from a failed stream never end *)
Lemma get_failed : forall s, failed s = true -> get s = (None, fail s).
Proof. intros s H. unfold get, good. now rewrite H, andb_false_r. Qed.
Definition stuck {A} (item : scanner A) : Prop := forall s, failed s = true -> exists a s', item s = Ok (a, s') /\ failed s' = true.
Lemma list_loop_stuck : forall {A} (item : scanner A), stuck item -> forall fuel done s, failed s = true -> list_loop fuel item done s = OutOfFuel.
Proof.
  intros A item H fuel. induction fuel as [|fuel IH]; intros done s Hs; [reflexivity|]. cbn [list_loop]. destruct (H s Hs) as [a [s' [E Hs']]].
  rewrite E. cbn [bind fst snd]. rewrite get_failed by exact Hs'. cbn [is]. apply IH. reflexivity.
Qed.
Lemma scan_number_stuck : forall {A} (convert : option Z -> A * bool) old, stuck (scan_number convert old).
Proof. intros A convert old s H. exists old, (fail s). unfold scan_number, good. rewrite H, andb_false_r. split; reflexivity. Qed.
(** after one item that breaks the stream *)
Lemma list_loop_breaks : forall {A} (item : scanner A) a s s', stuck item -> item s = Ok (a, s') -> failed s' = true -> forall fuel done, list_loop fuel item done s = OutOfFuel.
Proof.
  intros A item a s s' H E Hs fuel done. destruct fuel as [|fuel]; [reflexivity|]. cbn [list_loop]. rewrite E. cbn [bind fst snd]. rewrite get_failed by exact Hs.
  cbn [is]. apply list_loop_stuck; [exact H|reflexivity].
Qed.
(** a charge that is a single number, met at the yellow colour *)
Definition lost_in_colour {S} {ST : SymText S} : Prop := forall fuel r, scan_list fuel scan_charge (ahead (console_yellow ++ open_list :: r)) = OutOfFuel.
Lemma colour_peek : forall {A} (item : scanner A) fuel r, scan_list fuel item (ahead (console_yellow ++ open_list :: r)) = list_loop fuel item [] (ahead (51 :: 51 :: 109 :: 91 :: r)).
Proof. reflexivity. Qed.
Lemma scan_33 : forall {A} (convert : option Z -> A * bool) old a ok r, convert (Some 33%Z) = (a, ok) ->
  scan_number convert old (ahead (51 :: 51 :: 109 :: 91 :: r)) = Ok (a, mkIn (109 :: 91 :: r) false (negb ok)).
Proof.
  intros A convert old a ok r Ha. unfold scan_number. cbn [good ahead at_eof failed negb andb left_over]. change (skip_spaces (51 :: 51 :: 109 :: 91 :: r)) with (51 :: 51 :: 109 :: 91 :: r). cbn match.
  change (take_integer (51 :: 51 :: 109 :: 91 :: r)) with (take_integer (print_integer 33 ++ 109 :: 91 :: r)). rewrite take_integer_back by reflexivity. rewrite Ha. reflexivity.
Qed.
Lemma lost_Z2 : @lost_in_colour bool _.
Proof. intros fuel r. rewrite colour_peek. eapply list_loop_breaks; [apply scan_number_stuck|apply scan_33; reflexivity|reflexivity]. Qed.
Lemma lost_number : forall {A} (convert : option Z -> A * bool) old a b, convert (Some 33%Z) = (a, true) -> convert None = (b, false) ->
  forall fuel r, scan_list fuel (scan_number convert old) (ahead (console_yellow ++ open_list :: r)) = OutOfFuel.
Proof.
  intros A convert old a b Ha Hb fuel r. rewrite colour_peek. destruct fuel as [|fuel]; [reflexivity|]. cbn [list_loop].
  pose proof (scan_33 convert old a true r Ha) as E. change (mkIn (109 :: 91 :: r) false (negb true)) with (ahead (109 :: 91 :: r)) in E.
  rewrite E. cbn [bind fst snd get good ahead at_eof failed negb andb left_over is]. change (Nat.eqb close_list 109) with false. cbn match.
  eapply list_loop_breaks with (a := b) (s' := mkIn (91 :: r) false true); [apply scan_number_stuck| |reflexivity].
  unfold scan_number. cbn [good at_eof failed negb andb left_over]. change (skip_spaces (91 :: r)) with (91 :: r). cbn match.
  assert (T : take_integer (91 :: r) = (None, 91 :: r)) by (unfold take_integer; change (Nat.eqb 91 minus) with false; change (Nat.eqb 91 plus) with false; cbn match; cbn [take_digits digit]; destruct (take_digits r); reflexivity).
  rewrite T, Hb. reflexivity.
Qed.
Lemma lost_U1 : @lost_in_colour Z _.
Proof. intros fuel r. apply (lost_number (to_signed 32) 0%Z 33%Z 0%Z); reflexivity. Qed.
Lemma lost_Fermi : @lost_in_colour fermi16 _.
Proof. intros fuel r. eapply (lost_number (fun v => let (z, ok) := to_signed 16 v in (to_fermi z, ok)) (to_fermi 0)); reflexivity. Qed.

Section Kinds.
  Context {S R : Type} {SS : Sym S} {SL : SymLaws S} {ST : SymText S} {RT : ScalarText R}.
  Context {ok : S -> Prop}.
  Hypothesis TL : is_nosym = false -> SymTextLaws S ok.
  Hypothesis plain_bose : @is_nosym S SS = true -> @is_fermi S SS = false.
  Variables (junk : R) (text_of : name -> res text) (intern : list text -> list name).

  (** ** keys *)
  Lemma charges_look_full : forall key : list S, is_nosym = false -> (forall s, In s key -> ok s) -> key <> [] -> not_empty_looking (join (map print_charge key)).
  Proof.
    intros key N H Hne. pose proof (TL N) as TLN. apply looks_full.
    - destruct key as [|s key]; [now destruct Hne|]. destruct (charge_start s) as [c [r [E _]]]; [apply H; now left|]. cbn [map]. rewrite E. discriminate.
    - intros t c r Ht Et. apply in_map_iff in Ht as [s [<- Hs]]. destruct (charge_start s (H s Hs)) as [c0 [r0 [E [Hc _]]]]. rewrite E in Et. injection Et as -> ->. exact Hc.
    - destruct key; [now destruct Hne|discriminate].
  Qed.
  Lemma key_plain : forall fuel key, is_nosym = false -> (forall s, In s key -> ok s) -> length key <= fuel -> key_reads [] [] fuel key.
  Proof.
    intros fuel key N H Hf r. pose proof (TL N) as TLN. unfold key_text. cbn [app].
    pose proof (scan_list_back scan_charge print_charge key key fuel []) as G. cbn [app] in G. apply G; auto; [|now apply charges_look_full].
    assert (K : forall l, (forall s, In s l -> ok s) -> Forall2 (fun a b => scans_before in_list scan_charge (print_charge a) b) l l).
    { induction l as [|s l IH]; intro Hl; constructor; [|apply IH; intros; apply Hl; now right].
      eapply scans_weaken; [|apply charge_back; apply Hl; now left]. intros c [-> | ->]; reflexivity. }
    now apply K.
  Qed.

  (** every charge of a key belongs to an edge *)
  Lemma key_charges : forall t : tensor S R, wf_tensor t -> printable ok t -> forall k b, In (k, b) (t_blocks t) -> length k = length (t_names t) /\ forall s, In s k -> ok s.
  Proof.
    intros t W [Hp _] k b Hkb. destruct (wf_tcore t W) as [Hs Hb _].
    assert (Hin : In (k, length b) (block_list (maps_of (c_edges (t_core t))))).
    { rewrite <- Hb. unfold shape. apply in_map_iff. exists (k, b). split; [reflexivity|exact Hkb]. }
    apply in_block_list in Hin as [Hc _].
    assert (G : forall (ms : list (list (S * nat))) (k : list S) n, choice ms k n -> length k = length ms /\ forall s, In s k -> exists m d, In m ms /\ In (s, d) m).
    { clear. intros ms k n H. induction H as [|m ms s d k n Hsd H IH]; [split; [reflexivity|intros s []]|]. destruct IH as [IH1 IH2]. split; [cbn; congruence|].
      intros s' [<-|Hs']; [exists m, d; split; [now left|exact Hsd]|]. destruct (IH2 s' Hs') as [m' [d' [A B]]]. exists m', d'. split; [now right|exact B]. }
    destruct (G _ _ _ Hc) as [G1 G2]. split.
    - rewrite G1. unfold maps_of. rewrite map_length. symmetry. apply (wf_rank t W).
    - intros s Hs'. destruct (G2 s Hs') as [m [d [Hm Hsd]]]. unfold maps_of in Hm. apply in_map_iff in Hm as [e [<- He]]. exact (proj1 (Hp e s d He Hsd)).
  Qed.
  Lemma key_short : forall colour origin texts (t : tensor S R) k b, is_nosym = false -> In (k, b) (t_blocks t) -> length k <= length (tensor_text colour origin texts t).
  Proof.
    intros colour origin texts t k b N Hkb. unfold tensor_text, blocks_text. rewrite N.
    pose proof (print_map_part (fun key => key_text colour key ++ origin) print_block (t_blocks t) k b Hkb) as H.
    pose proof (print_list_count print_charge k) as H2. unfold key_text at 1 in H. rewrite !app_length in H.
    rewrite !app_length. cbn [length]. rewrite !app_length. cbn [length]. rewrite !app_length. cbn [length]. rewrite app_length. lia.
  Qed.

  (** a text that is read back for every sufficient fuel *)
  Definition reads_back (colour origin : text) (t : tensor S R) : Prop :=
    exists shown, show_tensor colour origin text_of t = Ok shown /\
    forall fuel, length shown <= fuel -> exists t', shown_alike t t' /\ scans (scan_tensor fuel junk intern) shown t'.
  Theorem reads_back_when : forall colour origin t texts, ~ In colon origin -> hd_error colour <> Some close_map ->
    wf_tensor t -> has_dimensions t -> interned text_of intern (t_names t) texts -> readable_names texts -> printable ok t ->
    (is_nosym = false -> forall fuel k b, In (k, b) (t_blocks t) -> length k <= fuel -> key_reads colour origin fuel k) -> reads_back colour origin t.
  Proof.
    intros colour origin t texts Ho Hc W Hd Hi Hn Hp Hk. exists (tensor_text colour origin texts t). split; [apply show_ok; auto; apply Hi|].
    intros fuel Hf. apply (text_round_trip TL plain_bose colour origin Ho fuel junk text_of intern Hc); auto. intros N k b Hkb. apply (Hk N fuel k b Hkb). pose proof (key_short colour origin texts t k b N Hkb). lia.
  Qed.
  Lemma no_colon_origin : ~ In colon console_origin.
  Proof. vm_compute. intuition discriminate. Qed.

  (** a number met at the colour: reading never ends *)
  Theorem never_ends : @lost_in_colour S ST -> is_nosym = false -> forall t texts, t_blocks t <> [] ->
    wf_tensor t -> has_dimensions t -> interned text_of intern (t_names t) texts -> readable_names texts -> printable ok t ->
    exists shown, show_tensor console_yellow console_origin text_of t = Ok shown /\
    forall fuel rest, length shown <= fuel -> scan_tensor fuel junk intern (ahead (shown ++ rest)) = OutOfFuel.
  Proof.
    intros Lost N t texts Hb W Hd Hi Hn Hp. exists (tensor_text console_yellow console_origin texts t). split; [apply show_ok; auto; apply Hi|].
    intros fuel rest Hf. destruct (scan_head TL plain_bose console_yellow console_origin fuel junk text_of intern t texts W Hd Hi Hn Hp Hf) as [Hf' Hhead].
    rewrite Hhead. clear Hhead. unfold scan_blocks, blocks_text in *. rewrite N in *.
    destruct (t_blocks t) as [|[k b] bs] eqn:E; [now destruct Hb|].
    set (x := print_map _ _ _ ++ _).
    assert (Ex : exists r, x = open_map :: console_yellow ++ open_list :: r).
    { unfold x, print_map, key_text, print_list. cbn [map fst snd]. destruct bs as [|kb bs]; cbn [map join app]; rewrite <- ?app_assoc; cbn [app]; eexists; reflexivity. }
    destruct Ex as [r ->]. unfold scan_map.
    change (ignore open_map (ahead (open_map :: console_yellow ++ open_list :: r))) with (ahead (console_yellow ++ open_list :: r)).
    change (peek (ahead (console_yellow ++ open_list :: r))) with (Some escape, ahead (console_yellow ++ open_list :: r)). change (is close_map (Some escape)) with false. cbn match.
    destruct fuel as [|fuel]; [cbn in Hf; lia|]. cbn [map_loop]. rewrite Lost. reflexivity.
  Qed.

  (** ** spectra *)
  Lemma spectrum_text_plain : is_nosym = true -> forall l : list R, (forall x, In x l -> readable x) ->
    exists shown, show_singular console_yellow console_origin [(szero, l)] = Ok shown /\
    forall fuel, length shown <= fuel -> exists l', Forall2 same_text l l' /\ scans (scan_singular fuel junk) shown [(@szero S SS, l')].
  Proof.
    intros N l Hl. unfold show_singular, scan_singular. rewrite N. cbn [hd_error get_or_ub bind snd]. exists (print_block l). split; [reflexivity|].
    intros fuel Hf. destruct (block_back fuel junk l Hl) as [l' [H1 H2]].
    - pose proof (print_list_count print_scalar l). unfold print_block in Hf. lia.
    - exists l'. split; [exact H1|]. intro r. pose proof (H2 [] (fun x => x) r) as H3. cbn [app] in H3. rewrite H3. reflexivity.
  Qed.
End Kinds.

(** ** pairs are found behind the colour *)
Section Pairs.
  Context {A : Type} (scan : scanner A) (print : A -> text).
  Lemma pair_key : forall fuel (key : list (fermi16 * A)), (forall x, In x key -> scans_before (fun c => is_digit c = false) scan (print (snd x)) (snd x)) ->
    key <> [] -> length key <= fuel ->
    forall r, scan_list fuel (scan_pair scan) (ahead ((console_yellow ++ print_list (print_pair print) key) ++ r)) = Ok (key, ahead r).
  Proof.
    intros fuel key H Hne Hf r. rewrite <- app_assoc. unfold print_list. cbn [app]. rewrite <- app_assoc. cbn [app]. rewrite colour_peek.
    assert (Hitem : forall x p, In x key -> ~ In open_pair p -> forall r, scan_pair scan (ahead (p ++ print_pair print x ++ r)) = Ok (x, ahead r)).
    { intros x p Hx Hp. apply scan_pair_back; [now apply H|exact Hp]. }
    destruct key as [|x key]; [now destruct Hne|]. destruct fuel as [|fuel]; [cbn in Hf; lia|]. cbn [list_loop].
    assert (P : ~ In open_pair [51; 51; 109; 91]) by (vm_compute; intuition discriminate).
    destruct key as [|x2 key].
    - cbn [map join]. change (51 :: 51 :: 109 :: 91 :: print_pair print x ++ close_list :: r) with ([51; 51; 109; 91] ++ print_pair print x ++ close_list :: r).
      rewrite Hitem by (auto; now left). reflexivity.
    - cbn [map]. rewrite join_cons by discriminate. rewrite <- app_assoc. cbn [app].
      change (51 :: 51 :: 109 :: 91 :: print_pair print x ++ ?y) with ([51; 51; 109; 91] ++ print_pair print x ++ y). rewrite Hitem by (auto; now left).
      cbn [bind fst snd get good ahead at_eof failed negb andb left_over]. change (is close_list (Some comma)) with false. cbn match.
      change (mkIn (join (print_pair print x2 :: map (print_pair print) key) ++ close_list :: r) false false) with (ahead (join (map (print_pair print) (x2 :: key)) ++ close_list :: r)).
      rewrite (list_loop_back (scan_pair scan) (print_pair print) (x2 :: key) (x2 :: key)); [reflexivity| |discriminate|cbn in *; lia].
      assert (K : forall l, (forall y, In y l -> In y (x2 :: key)) -> Forall2 (fun a b => scans_before in_list (scan_pair scan) (print_pair print a) b) l l).
      { induction l as [|y l IH]; intro Hl; constructor; [|apply IH; intros; apply Hl; now right]. intros c r' _. apply (Hitem y []); [right; apply Hl; now left|intros []]. }
      now apply K.
  Qed.
End Pairs.
