(** Reading back numbers, lists and maps. *)
From Coq Require Import Decimal DecimalZ DecimalPos DecimalFacts.
From Coq Require Import List Bool Arith ZArith Lia Sorted.
From Verif Require Import Base.Outcome Base.SMap Model.Symmetry Model.Edge Model.Core Model.Names Model.Text Spec.Binary Spec.Text.
From Verif Require Import Proof.SymmetryFacts Proof.BinaryFacts.
Import ListNotations.

Lemma good_ahead : forall t, good (ahead t) = true.
Proof. reflexivity. Qed.
Lemma behind_app : forall c p r, ~ In c p -> behind c (p ++ c :: r) = Some r.
Proof.
  induction p as [|d p IH]; intros r H; [cbn; now rewrite Nat.eqb_refl|]; cbn.
  destruct (Nat.eqb_spec c d) as [->|N]; [exfalso; apply H; now left|]. apply IH. intro. apply H. now right.
Qed.
Lemma ignore_app : forall c p r, ~ In c p -> ignore c (ahead (p ++ c :: r)) = ahead r.
Proof. intros. unfold ignore. cbn [good ahead at_eof failed negb andb left_over]. now rewrite behind_app. Qed.
Lemma ignore_none : forall c l, ~ In c l -> ignore c (ahead l) = mkIn [] true false.
Proof.
  intros c l H. unfold ignore. cbn [good ahead at_eof failed negb andb left_over].
  replace (behind c l) with (@None text); [reflexivity|]. symmetry. induction l as [|d l IH]; [reflexivity|]. cbn.
  destruct (Nat.eqb_spec c d) as [->|N]; [exfalso; apply H; now left|]. apply IH. intro. apply H. now right.
Qed.
Lemma ignore_failed : forall c s, failed s = true -> failed (ignore c s) = true.
Proof. intros c s H. unfold ignore, good. now rewrite H, andb_false_r. Qed.

(** ** numbers *)
Lemma digit_char : forall u c r, uint_text u = c :: r -> is_digit c = true.
Proof. destruct u; cbn; intros c r H; try discriminate; injection H as <- <-; reflexivity. Qed.
Lemma take_digits_back : forall u c r, is_digit c = false -> take_digits (uint_text u ++ c :: r) = (u, c :: r).
Proof.
  intros u c r Hc.
  assert (E : take_digits (c :: r) = (Nil, c :: r)).
  { cbn [take_digits]. destruct (take_digits r) as [u' r']. unfold is_digit in Hc.
    destruct (digit c u') eqn:D; [|reflexivity]. exfalso. revert Hc D. clear. do 58 (destruct c as [|c]; [cbn; congruence|]). cbn. congruence. }
  induction u; [exact E|..]; cbn [uint_text app take_digits]; rewrite IHu; reflexivity.
Qed.
Lemma to_int_shape : forall z, exists u, u <> Nil /\ ((Z.to_int z = Decimal.Pos u /\ Z.of_uint u = z) \/ (Z.to_int z = Decimal.Neg u /\ (- Z.of_uint u)%Z = z)).
Proof.
  intro z. pose proof (DecimalZ.of_to z) as H. destruct z as [|p|p]; cbn [Z.to_int] in *.
  - exists (D0 Nil). split; [discriminate|]. left. split; reflexivity.
  - exists (Pos.to_uint p). split; [apply Unsigned.to_uint_nonnil|]. left. split; [reflexivity|exact H].
  - exists (Pos.to_uint p). split; [apply Unsigned.to_uint_nonnil|]. right. split; [reflexivity|exact H].
Qed.
Lemma uint_text_cons : forall u, u <> Nil -> exists c r, uint_text u = c :: r.
Proof. destruct u; intro H; cbn; eauto. now destruct H. Qed.
Lemma is_digit_range : forall c, is_digit c = true -> 48 <= c <= 57.
Proof. intros c H. do 58 (destruct c as [|c]; [try discriminate H; lia|]). discriminate H. Qed.
Lemma print_integer_start : forall z, exists c r, print_integer z = c :: r /\ (is_digit c = true \/ (c = 45 /\ (z < 0)%Z)).
Proof.
  intro z. unfold print_integer. destruct (to_int_shape z) as [u [Hu [[-> E]|[E' E]]]].
  - destruct (uint_text_cons u Hu) as [c [r Er]]. exists c, r. split; [exact Er|]. left. eapply digit_char; eauto.
  - rewrite E'. exists 45, (uint_text u). split; [reflexivity|]. right. split; [reflexivity|]. destruct z; cbn [Z.to_int] in E'; try discriminate. lia.
Qed.
Lemma take_integer_back : forall z c r, is_digit c = false -> take_integer (print_integer z ++ c :: r) = (Some z, c :: r).
Proof.
  intros z c r Hc. unfold print_integer, take_integer. destruct (to_int_shape z) as [u [Hu [[-> E]|[-> E]]]].
  - destruct (uint_text_cons u Hu) as [d [rs Er]]. pose proof (is_digit_range _ (digit_char _ _ _ Er)) as Hd.
    pose proof (take_digits_back u c r Hc) as Ht. rewrite Er in *. cbn [app] in *.
    replace (Nat.eqb d minus) with false by (symmetry; apply Nat.eqb_neq; unfold minus; lia).
    replace (Nat.eqb d plus) with false by (symmetry; apply Nat.eqb_neq; unfold plus; lia).
    rewrite Ht. f_equal. destruct u; [now destruct Hu|..]; now rewrite E.
  - cbn [app]. change (Nat.eqb minus minus) with true. cbn match. rewrite take_digits_back by exact Hc. f_equal. destruct u; [now destruct Hu|..]; now rewrite E.
Qed.
Lemma not_space : forall c, is_digit c = true \/ c = 45 \/ c = 43 -> is_space c = false.
Proof.
  intros c H. assert (R : 33 <= c) by (destruct H as [H|H]; [apply is_digit_range in H; lia|lia]). unfold is_space.
  replace (Nat.eqb c 32) with false by (symmetry; apply Nat.eqb_neq; lia). replace (Nat.leb c 13) with false by (symmetry; apply Nat.leb_gt; lia).
  now rewrite andb_false_r.
Qed.
Lemma scan_number_back : forall {A} (convert : option Z -> A * bool) old z a, convert (Some z) = (a, true) ->
  scans_before (fun c => is_digit c = false) (scan_number convert old) (print_integer z) a.
Proof.
  intros A convert old z a Ha c r Hc. unfold scan_number. cbn [good ahead at_eof failed negb andb left_over].
  pose proof (take_integer_back z c r Hc) as Ht. destruct (print_integer_start z) as [d [rs [Er Hd]]]. rewrite Er in *. cbn [app] in *. cbn [skip_spaces].
  rewrite not_space by (destruct Hd as [|[-> _]]; auto). rewrite Ht, Ha. reflexivity.
Qed.

Lemma scan_size_back : forall old n, fits n -> scans_before (fun c => is_digit c = false) (scan_size old) (print_size n) n.
Proof.
  intros old n H. apply scan_number_back. unfold to_size. unfold fits in H. rewrite Z.abs_eq by lia.
  destruct (Z.leb_spec (2 ^ 64) (Z.of_nat n)); [lia|]. rewrite Z.mod_small by lia. now rewrite Nat2Z.id.
Qed.
Lemma to_signed_ok : forall bits z, (- 2 ^ (bits - 1) <= z < 2 ^ (bits - 1))%Z -> to_signed bits (Some z) = (z, true).
Proof.
  intros bits z H. unfold to_signed. destruct (Z.ltb_spec z (- 2 ^ (bits - 1))); [lia|]. destruct (Z.leb_spec (2 ^ (bits - 1)) z); [lia|reflexivity].
Qed.
Lemma scan_int_back : forall old z, fits_int z -> scans_before (fun c => is_digit c = false) (scan_int old) (print_integer z) z.
Proof. intros old z H. apply scan_number_back. apply to_signed_ok. exact H. Qed.
Lemma scan_short_back : forall old f, scans_before (fun c => is_digit c = false) (scan_short old) (print_short f) f.
Proof.
  intros old f. apply scan_number_back. rewrite to_signed_ok.
  - now rewrite to_fermi_z.
  - apply fermi_range.
Qed.
Lemma scan_bool_back : forall old b, scans_before (fun c => is_digit c = false) (scan_bool old) (print_bool b) b.
Proof. intros old b. replace (print_bool b) with (print_integer (if b then 1 else 0)) by (destruct b; reflexivity). apply scan_number_back. now destruct b. Qed.

(** ** lists and maps *)
Lemma join_cons : forall t ts, ts <> [] -> join (t :: ts) = t ++ comma :: join ts.
Proof. intros t [|t' ts] H; [now destruct H|reflexivity]. Qed.
Lemma scans_weaken : forall {A} (p q : nat -> Prop) (rd : scanner A) t a, (forall c, q c -> p c) -> scans_before p rd t a -> scans_before q rd t a.
Proof. intros A p q rd t a H S c r Hc. apply S. auto. Qed.
Lemma scans_any : forall {A} (q : nat -> Prop) (rd : scanner A) t a, scans rd t a -> scans_before q rd t a.
Proof. intros A q rd t a S c r _. apply S. Qed.
Definition in_list (c : nat) : Prop := c = 44 \/ c = 93.

Lemma list_loop_back : forall {A B} (item : scanner B) (w : A -> text) l lb,
  Forall2 (fun a b => scans_before in_list item (w a) b) l lb -> l <> [] ->
  forall fuel done r, length l <= fuel -> list_loop fuel item done (ahead (join (map w l) ++ close_list :: r)) = Ok (done ++ lb, ahead r).
Proof.
  intros A B item w l lb H. induction H as [|a b l lb Hab H IH]; intros Hne fuel done r Hf; [now destruct Hne|].
  destruct fuel as [|fuel]; [cbn in Hf; lia|]. cbn [list_loop].
  destruct l as [|a' l].
  - inversion H; subst. cbn [map join]. rewrite (Hab close_list r) by (now right). reflexivity.
  - cbn [map]. rewrite join_cons by discriminate. rewrite <- app_assoc. cbn [app]. rewrite (Hab comma) by (now left). cbn [bind fst snd get good ahead at_eof failed negb andb left_over].
    change (is close_list (Some comma)) with false. cbn match.
    change (mkIn (join (w a' :: map w l) ++ close_list :: r) false false) with (ahead (join (map w (a' :: l)) ++ close_list :: r)).
    rewrite IH; [|discriminate|cbn in *; lia]. now rewrite <- app_assoc.
Qed.
(** the list does not look empty *)
Definition not_empty_looking (t : text) : Prop := hd_error (t ++ [close_list]) <> Some close_list.
Lemma hd_app : forall (t : text) c r r', hd_error (t ++ c :: r) = hd_error (t ++ c :: r').
Proof. destruct t; reflexivity. Qed.
Lemma scan_list_back : forall {A B} (item : scanner B) (w : A -> text) l lb fuel p,
  Forall2 (fun a b => scans_before in_list item (w a) b) l lb -> length l <= fuel -> (l <> [] -> not_empty_looking (join (map w l))) -> ~ In open_list p ->
  forall r, scan_list fuel item (ahead (p ++ print_list w l ++ r)) = Ok (lb, ahead r).
Proof.
  intros A B item w l lb fuel p H Hf Hn Hp r. unfold scan_list, print_list. cbn [app]. rewrite ignore_app by exact Hp. rewrite <- app_assoc. cbn [app].
  destruct l as [|a l].
  - inversion H; subst. reflexivity.
  - specialize (Hn ltac:(discriminate)). unfold not_empty_looking in Hn. rewrite (hd_app _ _ _ r) in Hn.
    unfold peek. rewrite good_ahead. cbn [ahead left_over].
    destruct (join (map w (a :: l)) ++ close_list :: r) as [|c t] eqn:E.
    { destruct (join (map w (a :: l))); discriminate E. }
    cbn [hd_error] in Hn. cbn [is]. destruct (Nat.eqb_spec close_list c) as [Ec|N]; [subst c; now destruct Hn|].
    change (mkIn (c :: t) false false) with (ahead (c :: t)). rewrite <- E. rewrite (list_loop_back item w (a :: l) lb H); [reflexivity|discriminate|exact Hf].
Qed.

Lemma map_loop_back : forall {K V V'} {OK : Ord K} {OL : OrdLaws K} (key : scanner K) (value : option V' -> scanner V') (wk : K -> text) (wo : text) (wv : V -> text) l lb,
  ~ In colon wo ->
  Forall2 (fun kv kv' => fst kv = fst kv' /\ (forall r, key (ahead (wk (fst kv) ++ wo ++ colon :: r)) = Ok (fst kv, ahead (wo ++ colon :: r))) /\
    forall old, scans_before (fun c => c = comma \/ c = close_map) (value old) (wv (snd kv)) (snd kv')) l lb -> l <> [] ->
  forall fuel done r, length l <= fuel -> msorted (done ++ lb) ->
  map_loop fuel key value done (ahead (join (map (fun kv => wk (fst kv) ++ wo ++ colon :: wv (snd kv)) l) ++ close_map :: r)) = Ok (done ++ lb, ahead r).
Proof.
  intros K V V' OK OL key value wk wo wv l lb Hwo H. induction H as [|[k v] [k' v'] l lb [Hk [Hkey Hval]] H IH]; intros Hne fuel done r Hf Hs; [now destruct Hne|].
  cbn [fst snd] in *. subst k'. destruct fuel as [|fuel]; [cbn in Hf; lia|]. cbn [map_loop].
  assert (Hset : mset k v' done = done ++ [(k, v')]).
  { apply mset_app_max. unfold msorted in Hs. rewrite map_app in Hs. cbn [map fst] in Hs. clear - Hs. intros k0 H0.
    induction (map fst done) as [|k1 l1 IHl]; [destruct H0|]. cbn [app] in Hs. apply StronglySorted_inv in Hs as [Hs1 Hs2]. destruct H0 as [<-|H0]; [|now apply IHl].
    rewrite Forall_forall in Hs2. apply Hs2. apply in_or_app. right. now left. }
  destruct l as [|kv2 l].
  - inversion H; subst. cbn [map join fst snd]. rewrite <- !app_assoc. cbn [app]. rewrite Hkey. cbn [bind fst snd]. rewrite ignore_app by exact Hwo.
    rewrite (Hval _ close_map r) by (now right). cbn [bind fst snd get good ahead at_eof failed negb andb left_over].
    change (is comma (Some close_map)) with false. cbn match. now rewrite Hset.
  - cbn [map]. rewrite join_cons by discriminate. cbn [fst snd]. rewrite <- ?app_assoc. cbn [app]. rewrite <- ?app_assoc. cbn [app]. rewrite Hkey. cbn [bind fst snd]. rewrite ignore_app by exact Hwo.
    rewrite (Hval _ comma) by (now left). cbn [bind fst snd get good ahead at_eof failed negb andb left_over].
    change (is comma (Some comma)) with true. cbn match. rewrite Hset.
    etransitivity; [apply (IH ltac:(discriminate) fuel (done ++ [(k, v')]) r)|].
    + cbn in *; lia.
    + rewrite <- app_assoc. exact Hs.
    + now rewrite <- app_assoc.
Qed.

Lemma scan_map_back : forall {K V V'} {OK : Ord K} {OL : OrdLaws K} (key : scanner K) (value : option V' -> scanner V') (wk : K -> text) (wo : text) (wv : V -> text) l lb fuel p,
  ~ In colon wo ->
  Forall2 (fun kv kv' => fst kv = fst kv' /\ (forall r, key (ahead (wk (fst kv) ++ wo ++ colon :: r)) = Ok (fst kv, ahead (wo ++ colon :: r))) /\
    forall old, scans_before (fun c => c = comma \/ c = close_map) (value old) (wv (snd kv)) (snd kv')) l lb ->
  (forall k v, In (k, v) l -> hd_error (wk k ++ wo ++ [colon]) <> Some close_map) ->
  length l <= fuel -> msorted lb -> ~ In open_map p ->
  forall r, scan_map fuel key value (ahead (p ++ print_map (fun k => wk k ++ wo) wv l ++ r)) = Ok (lb, ahead r).
Proof.
  intros K V V' OK OL key value wk wo wv l lb fuel p Hwo H Hst Hf Hs Hp r. unfold scan_map, print_map. cbn [app]. rewrite ignore_app by exact Hp. rewrite <- app_assoc. cbn [app].
  replace (map (fun kv : K * V => (wk (fst kv) ++ wo) ++ colon :: wv (snd kv)) l) with (map (fun kv : K * V => wk (fst kv) ++ wo ++ colon :: wv (snd kv)) l)
    by (apply map_ext; intro; now rewrite <- app_assoc).
  destruct l as [|[k v] l].
  - inversion H; subst. reflexivity.
  - specialize (Hst k v (or_introl eq_refl)). unfold peek. rewrite good_ahead. cbn [ahead left_over].
    assert (Hh : hd_error (join (map (fun kv => wk (fst kv) ++ wo ++ colon :: wv (snd kv)) ((k, v) :: l)) ++ close_map :: r) <> Some close_map).
    { assert (G : forall x, hd_error ((wk k ++ wo ++ colon :: wv v) ++ x) <> Some close_map).
      { intros x E. apply Hst. rewrite <- E. rewrite <- !app_assoc. cbn [app]. rewrite !app_assoc. apply hd_app. }
      destruct l as [|kv2 l]; cbn [map]; [apply G|]. rewrite join_cons by discriminate. cbn [fst snd]. rewrite <- (app_assoc (_ ++ _)). apply G. }
    destruct (join _ ++ close_map :: r) as [|c t] eqn:E.
    { destruct (join (map (fun kv => wk (fst kv) ++ wo ++ colon :: wv (snd kv)) ((k, v) :: l))); discriminate E. }
    cbn [is]. destruct (Nat.eqb_spec close_map c) as [Ec|N]; [subst c; now destruct Hh|].
    change (mkIn (c :: t) false false) with (ahead (c :: t)). rewrite <- E.
    apply (map_loop_back key value wk wo wv ((k, v) :: l) lb Hwo H); auto. discriminate.
Qed.

(** ** lengths *)
Lemma join_count : forall ts, length ts <= S (length (join ts)).
Proof.
  induction ts as [|t ts IH]; [cbn; lia|]. destruct ts as [|t' ts]; [cbn; lia|]. rewrite join_cons by discriminate. rewrite app_length. cbn [length] in *. lia.
Qed.
Lemma join_part : forall ts t, In t ts -> length t <= length (join ts).
Proof.
  induction ts as [|t0 ts IH]; [intros t []|]. intros t H. destruct ts as [|t' ts].
  - destruct H as [->|[]]. cbn. lia.
  - rewrite join_cons by discriminate. rewrite app_length. cbn [length]. destruct H as [->|H]; [lia|]. specialize (IH t H). lia.
Qed.
Lemma print_list_count : forall {A} (w : A -> text) l, length l <= length (print_list w l).
Proof. intros. unfold print_list. cbn [length]. rewrite app_length. cbn [length]. pose proof (join_count (map w l)) as H. rewrite map_length in H. lia. Qed.
Lemma print_list_part : forall {A} (w : A -> text) l a, In a l -> length (w a) <= length (print_list w l).
Proof. intros. unfold print_list. cbn [length]. rewrite app_length. pose proof (join_part (map w l) (w a) (in_map w l a H)). lia. Qed.
Lemma print_map_count : forall {K V} (wk : K -> text) (wv : V -> text) l, length l <= length (print_map wk wv l).
Proof.
  intros. unfold print_map. cbn [length]. rewrite app_length. cbn [length].
  pose proof (join_count (map (fun kv => wk (fst kv) ++ colon :: wv (snd kv)) l)) as H. rewrite map_length in H. lia.
Qed.
Lemma print_map_part : forall {K V} (wk : K -> text) (wv : V -> text) l k v, In (k, v) l -> length (wk k) + length (wv v) <= length (print_map wk wv l).
Proof.
  intros K V wk wv l k v H. unfold print_map. cbn [length]. rewrite app_length.
  pose proof (join_part (map (fun kv => wk (fst kv) ++ colon :: wv (snd kv)) l) (wk k ++ colon :: wv v) (in_map (fun kv => wk (fst kv) ++ colon :: wv (snd kv)) l (k, v) H)) as G.
  rewrite app_length in G. cbn [length] in G. lia.
Qed.

(** ** charges *)
Class SymTextLaws (S : Type) {ST : SymText S} (ok : S -> Prop) : Prop := {
  charge_back : forall s, ok s -> scans_before (fun c => is_digit c = false) scan_charge (print_charge s) s;
  charge_start : forall s, ok s -> exists c r, print_charge s = c :: r /\ c <> 93 /\ c <> 125 }.
Lemma integer_start : forall z, exists c r, print_integer z = c :: r /\ c <> 93 /\ c <> 125.
Proof.
  intro z. destruct (print_integer_start z) as [c [r [E H]]]. exists c, r. split; [exact E|].
  destruct H as [H|[-> _]]; [apply is_digit_range in H; lia|lia].
Qed.
#[global] Instance SymTextLaws_Z2 : SymTextLaws bool (fun _ => True).
Proof. split; intros s _; [apply scan_bool_back|]. exists (if s then 49 else 48), []. destruct s; (split; [reflexivity|lia]). Qed.
#[global] Instance SymTextLaws_U1 : SymTextLaws Z fits_int.
Proof. split; intros s H; [now apply scan_int_back|apply integer_start]. Qed.
#[global] Instance SymTextLaws_Fermi : SymTextLaws fermi16 (fun _ => True).
Proof. split; intros s _; [apply scan_short_back|apply integer_start]. Qed.
Lemma no_char_integer : forall z c, c <> 45 -> is_digit c = false -> ~ In c (print_integer z).
Proof.
  intros z c H1 H2 H. unfold print_integer in H.
  assert (G : forall u, ~ In c (uint_text u)) by (induction u; cbn; intro K; [exact K|..]; (destruct K as [<-|K]; [discriminate H2|auto])).
  destruct (Z.to_int z); [now apply G in H|]. destruct H as [H|H]; [now apply H1|now apply G in H].
Qed.
(** a pair is found behind anything without an opening bracket *)
Lemma scan_pair_back : forall {A} (scan : scanner A) (print : A -> text) x p, scans_before (fun c => is_digit c = false) scan (print (snd x)) (snd x) ->
  ~ In open_pair p -> forall r, scan_pair scan (ahead (p ++ print_pair print x ++ r)) = Ok (x, ahead r).
Proof.
  intros A scan print [f a] p Ha Hp r. unfold scan_pair, print_pair. cbn [fst snd app]. rewrite ignore_app by exact Hp. rewrite <- !app_assoc. cbn [app].
  rewrite (scan_short_back _ f comma) by reflexivity. cbn [bind fst snd].
  replace (ignore comma (ahead (comma :: (print a ++ [close_pair]) ++ r))) with (ahead (print a ++ close_pair :: r)) by (rewrite <- app_assoc; reflexivity).
  cbn [snd] in Ha. rewrite (Ha close_pair) by reflexivity. reflexivity.
Qed.
#[global] Instance SymTextLaws_FermiZ2 : SymTextLaws (fermi16 * bool) (fun _ => True).
Proof.
  split; intros s _.
  - intros c r _. apply (scan_pair_back _ _ s []); [apply scan_bool_back|intros []].
  - eexists; eexists. split; [reflexivity|]. unfold open_pair. lia.
Qed.
#[global] Instance SymTextLaws_FermiU1 : SymTextLaws (fermi16 * Z) (fun x => fits_int (snd x)).
Proof.
  split; intros s H.
  - intros c r _. apply (scan_pair_back _ _ s []); [now apply scan_int_back|intros []].
  - eexists; eexists. split; [reflexivity|]. unfold open_pair. lia.
Qed.

(** ** names *)
Lemma separator_free_valid : forall t, separator_free t -> forall c, In c t -> valid_name_character c = true.
Proof.
  intros t H c Hc. specialize (H c Hc). unfold valid_name_character, comma, open_list, close_list. rewrite !andb_true_iff, !negb_true_iff, !Nat.ltb_lt, !Nat.eqb_neq. lia.
Qed.
Lemma take_name_back : forall t c r, (forall d, In d t -> valid_name_character d = true) -> valid_name_character c = false -> take_name (t ++ c :: r) = (t, c :: r).
Proof.
  induction t as [|d t IH]; intros c r Ht Hc; cbn [app take_name]; [now rewrite Hc|]. rewrite Ht by (now left). rewrite IH; auto. intros. apply Ht. now right.
Qed.
Lemma scan_name_back : forall t, separator_free t -> length t <= 255 -> scans_before in_list scan_name t t.
Proof.
  intros t H L c r Hc. unfold scan_name. rewrite good_ahead. cbn [ahead left_over].
  rewrite take_name_back; [|apply separator_free_valid; exact H|destruct Hc as [-> | ->]; reflexivity].
  destruct (Nat.ltb_spec 255 (length t)); [lia|reflexivity].
Qed.
Lemma scan_name_long : forall t c r, separator_free t -> 255 < length t -> in_list c -> scan_name (ahead (t ++ c :: r)) = UB.
Proof.
  intros t c r H L Hc. unfold scan_name. rewrite good_ahead. cbn [ahead left_over].
  rewrite take_name_back; [|apply separator_free_valid; exact H|destruct Hc as [-> | ->]; reflexivity].
  destruct (Nat.ltb_spec 255 (length t)); [reflexivity|lia].
Qed.
