(** Names in text; the kinds of tensors. *)
From Coq Require Import String.
From Coq Require Import List Bool Arith ZArith Lia.
From Verif Require Import Base.Outcome Base.SMap Model.Symmetry Model.Edge Model.Core Model.Names Model.Text Spec.Blocks Spec.Binary Spec.Text.
From Verif Require Import Proof.NamesFacts Proof.SymmetryFacts Proof.LoopFacts Proof.CoreFacts Proof.ElemFacts Proof.BinaryFacts Proof.BinaryTensor Proof.TextFacts Proof.TextTensor Proof.TextKinds.
Import ListNotations.

(** the names of a process that made them in any order *)
Lemma fast_interned : forall history names texts, let table := fst (new_names fresh_dataset history) in
  mapM (name_text table) names = Ok texts ->
  interned (name_text table) (fun ts => snd (new_names table ts)) names texts /\ fst (new_names table texts) = table.
Proof.
  intros history names texts table H. assert (G : good table) by (apply new_names_good, fresh_good).
  enough (K : new_names table texts = (table, names)) by (rewrite K; repeat split; [exact H|now rewrite K]).
  revert texts H. induction names as [|n names IH]; intros texts H; cbn [mapM] in H.
  - injection H as <-. reflexivity.
  - unfold name_text at 1 in H. destruct (nth_error (id_to_name table) n) as [t|] eqn:E; [|discriminate]. cbn [get_or_ub bind] in H.
    destruct (mapM (name_text table) names) as [ts| | |] eqn:E2; try discriminate. injection H as <-. cbn [new_names].
    assert (E3 : new_name table t = (table, n)) by (unfold new_name; rewrite (proj2 (g_link _ G t n) E); reflexivity).
    rewrite E3, (IH ts eq_refl). reflexivity.
Qed.

(** the buffer is too small *)
Lemma list_loop_long : forall texts, (forall t, In t texts -> separator_free t) -> (exists t, In t texts /\ 255 < length t) ->
  forall fuel done r, length texts <= fuel -> list_loop fuel scan_name done (ahead (join texts ++ close_list :: r)) = UB.
Proof.
  induction texts as [|t texts IH]; intros Hs [u [Hu Lu]] fuel done r Hf; [destruct Hu|]. destruct fuel as [|fuel]; [cbn in Hf; lia|]. cbn [list_loop].
  assert (St : separator_free t) by (apply Hs; now left).
  destruct texts as [|t2 texts].
  - destruct Hu as [->|[]]. cbn [join]. rewrite scan_name_long; [reflexivity|exact St|exact Lu|now right].
  - rewrite join_cons by discriminate. rewrite <- app_assoc. cbn [app]. destruct (Nat.lt_ge_cases 255 (length t)) as [L|L].
    + rewrite scan_name_long; [reflexivity|exact St|exact L|now left].
    + rewrite (scan_name_back t St L comma) by (now left). cbn [bind fst snd get Text.good ahead at_eof failed negb andb left_over]. change (is close_list (Some comma)) with false. cbn match.
      change (mkIn (join (t2 :: texts) ++ close_list :: r) false false) with (ahead (join (t2 :: texts) ++ close_list :: r)).
      apply IH; [intros; apply Hs; now right| |cbn in *; lia]. exists u. split; [|exact Lu]. destruct Hu as [->|Hu]; [lia|exact Hu].
Qed.
Lemma long_name_overflows : forall (S R : Type) (SS : Sym S), SymLaws S -> forall (ST : SymText S) (RT : ScalarText R) colour origin (junk : R) text_of intern (t : tensor S R) texts,
  wf_tensor t -> has_dimensions t -> interned text_of intern (t_names t) texts -> (forall x, In x texts -> separator_free x) -> (exists x, In x texts /\ 255 < length x) ->
  exists shown, show_tensor colour origin text_of t = Ok shown /\ forall fuel rest, length shown <= fuel -> scan_tensor fuel junk intern (ahead (shown ++ rest)) = UB.
Proof.
  intros S R SS SL ST RT colour origin junk text_of intern t texts W Hd Hi Hs Hl. exists (tensor_text colour origin texts t). split; [apply show_ok; auto; apply Hi|].
  intros fuel rest Hf.
  assert (Lt : length texts <= fuel).
  { pose proof (print_list_count (fun x : text => x) texts). unfold tensor_text in Hf. rewrite !app_length in Hf. cbn [length] in Hf. rewrite app_length in Hf. lia. }
  unfold scan_tensor, tensor_text. assert (T1 : ~ In colon (open_map :: title "names"%string)) by (vm_compute; intuition discriminate). rewrite <- app_assoc. change ((colon :: ?a) ++ ?b) with (colon :: a ++ b). rewrite ignore_app by exact T1.
  unfold scan_list, print_list. rewrite <- app_assoc. change ((open_list :: ?a) ++ ?b) with ([] ++ open_list :: a ++ b). rewrite ignore_app by (intros []). rewrite map_id, <- app_assoc.
  set (r := [close_list] ++ _). change r with (close_list :: tl r). generalize (tl r). clear r. intro r.
  assert (Hne : hd_error (join texts ++ close_list :: r) <> Some close_list).
  { rewrite (hd_app _ _ _ []). apply looks_full; [| |destruct Hl as [x [Hx _]]; destruct texts; [destruct Hx|discriminate]].
    - destruct Hl as [x [Hx Lx]]. intros ->. destruct Hx as [<-|[]]. cbn in Lx. lia.
    - intros x c r' Hx -> E. destruct (Hs _ Hx c (or_introl eq_refl)) as [_ [_ [_ G]]]. now apply G. }
  unfold peek. rewrite good_ahead. cbn [ahead left_over]. destruct (join texts ++ close_list :: r) as [|c l] eqn:E; [destruct (join texts); discriminate E|].
  cbn [is]. destruct (Nat.eqb_spec close_list c) as [Ec|N]; [subst c; now destruct Hne|].
  change (mkIn (c :: l) false false) with (ahead (c :: l)). rewrite <- E, list_loop_long; auto.
Qed.

(** ** plain tensors *)
Lemma plain_text : forall (R : Type) (RT : ScalarText R) (junk : R) text_of intern (t : tensor unit R) texts,
  wf_tensor t -> has_dimensions t -> interned text_of intern (t_names t) texts -> readable_names texts -> printable (fun _ => True) t ->
  exists shown, show_tensor console_yellow console_origin text_of t = Ok shown /\
  forall fuel, length shown <= fuel -> exists t', shown_alike t t' /\ scans (scan_tensor fuel junk intern) shown t'.
Proof.
  intros R RT junk text_of intern t texts W Hd Hi Hn Hp.
  refine (reads_back_when (ok := fun _ => True) _ _ junk text_of intern console_yellow console_origin t texts _ _ W Hd Hi Hn Hp _); try discriminate; try reflexivity.
  apply no_colon_origin.
Qed.
Lemma plain_spectrum_text : forall (R : Type) (RT : ScalarText R) (junk : R) (l : list R), (forall x, In x l -> readable x) ->
  exists shown, show_singular console_yellow console_origin [(tt, l)] = Ok shown /\
  forall fuel, length shown <= fuel -> exists l', Forall2 same_text l l' /\ scans (scan_singular fuel junk) shown [(tt, l')].
Proof. intros R RT junk l H. exact (@spectrum_text_plain unit R _ _ RT junk eq_refl l H). Qed.

(** ** symmetric tensors *)
Section Symmetric.
  Context {S : Type} {SS : Sym S} {SL : SymLaws S} {ST : SymText S} {ok : S -> Prop} {TL : SymTextLaws S ok}.
  Hypothesis sym : @is_nosym S SS = false.
  Lemma not_plain : @is_nosym S SS = true -> @is_fermi S SS = false.
  Proof. congruence. Qed.
  Lemma sym_dimensions : forall (R : Type) (t : tensor S R), has_dimensions t.
  Proof. intros R t N. congruence. Qed.
  Lemma uncoloured : forall (R : Type) (RT : ScalarText R) (junk : R) text_of intern (t : tensor S R) texts,
    wf_tensor t -> interned text_of intern (t_names t) texts -> readable_names texts -> printable ok t ->
    exists shown, show_tensor [] [] text_of t = Ok shown /\
    forall fuel, length shown <= fuel -> exists t', shown_alike t t' /\ scans (scan_tensor fuel junk intern) shown t'.
  Proof.
    intros R RT junk text_of intern t texts W Hi Hn Hp.
    refine (reads_back_when (ok := ok) (fun _ => TL) not_plain junk text_of intern [] [] t texts _ _ W (sym_dimensions R t) Hi Hn Hp _); [intros []|discriminate|].
    intros _ fuel k b Hkb Hf. apply (key_plain (ok := ok) (fun _ => TL)); auto. intros s Hs. now apply (key_charges t W Hp k b Hkb).
  Qed.
  Lemma coloured_lost : @lost_in_colour S ST -> forall (R : Type) (RT : ScalarText R) (junk : R) text_of intern (t : tensor S R) texts, t_blocks t <> [] ->
    wf_tensor t -> interned text_of intern (t_names t) texts -> readable_names texts -> printable ok t ->
    exists shown, show_tensor console_yellow console_origin text_of t = Ok shown /\
    forall fuel rest, length shown <= fuel -> scan_tensor fuel junk intern (ahead (shown ++ rest)) = OutOfFuel.
  Proof.
    intros Lost R RT junk text_of intern t texts Hb W Hi Hn Hp. apply (never_ends (ok := ok) (fun _ => TL) not_plain junk text_of intern Lost sym t texts); auto. apply sym_dimensions.
  Qed.
  Lemma coloured_found : (forall fuel key, key <> [] -> (forall s, In s key -> ok s) -> length key <= fuel ->
      forall r, scan_list fuel scan_charge (ahead ((console_yellow ++ print_list print_charge key) ++ r)) = Ok (key, ahead r)) ->
    forall (R : Type) (RT : ScalarText R) (junk : R) text_of intern (t : tensor S R) texts, t_names t <> [] ->
    wf_tensor t -> interned text_of intern (t_names t) texts -> readable_names texts -> printable ok t ->
    exists shown, show_tensor console_yellow console_origin text_of t = Ok shown /\
    forall fuel, length shown <= fuel -> exists t', shown_alike t t' /\ scans (scan_tensor fuel junk intern) shown t'.
  Proof.
    intros Found R RT junk text_of intern t texts Hr W Hi Hn Hp.
    refine (reads_back_when (ok := ok) (fun _ => TL) not_plain junk text_of intern _ _ t texts _ _ W (sym_dimensions R t) Hi Hn Hp _); [apply no_colon_origin|discriminate|].
    intros _ fuel k b Hkb Hf r. destruct (key_charges t W Hp k b Hkb) as [H1 H2]. apply Found; auto. intros ->. destruct (t_names t); [now apply Hr|discriminate].
  Qed.
End Symmetric.
Lemma found_FermiZ2 : forall fuel (key : list (fermi16 * bool)), key <> [] -> (forall s, In s key -> True) -> length key <= fuel ->
  forall r, scan_list fuel scan_charge (ahead ((console_yellow ++ print_list print_charge key) ++ r)) = Ok (key, ahead r).
Proof. intros fuel key Hne _ Hf r. apply (pair_key (scan_bool false) print_bool); auto. intros. apply scan_bool_back. Qed.
Lemma found_FermiU1 : forall fuel (key : list (fermi16 * Z)), key <> [] -> (forall s, In s key -> fits_int (snd s)) -> length key <= fuel ->
  forall r, scan_list fuel scan_charge (ahead ((console_yellow ++ print_list print_charge key) ++ r)) = Ok (key, ahead r).
Proof. intros fuel key Hne H Hf r. apply (pair_key (scan_int 0) print_integer); auto. intros. apply scan_int_back. now apply H. Qed.
