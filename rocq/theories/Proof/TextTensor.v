(** Printed tensors and spectra are read back. *)
From Coq Require Import String.
From Coq Require Import List Bool Arith ZArith Lia.
From Verif Require Import Base.Outcome Base.SMap Model.Symmetry Model.Edge Model.Core Model.Names Model.Text Spec.Binary Spec.Text.
From Verif Require Import Proof.SymmetryFacts Proof.CoreFacts Proof.ElemFacts Proof.BinaryFacts Proof.BinaryTensor Proof.TextFacts.
Import ListNotations.

Lemma Forall2_exists : forall {A B} (P : A -> B -> Prop) l, (forall a, In a l -> exists b, P a b) -> exists lb, Forall2 P l lb.
Proof.
  induction l as [|a l IH]; intro H; [exists []; constructor|]. destruct (H a (or_introl eq_refl)) as [b Hb].
  destruct IH as [lb Hl]; [intros; apply H; now right|]. exists (b :: lb). now constructor.
Qed.
Lemma Forall2_imp : forall {A B} (P Q : A -> B -> Prop) l lb, (forall a b, In a l -> P a b -> Q a b) -> Forall2 P l lb -> Forall2 Q l lb.
Proof. intros A B P Q l lb H F. induction F as [|a b l lb Hab F IH]; constructor; [apply H; [now left|exact Hab]|]. apply IH. intros. apply H; [now right|assumption]. Qed.
Lemma Forall2_map_r : forall {A B} (P : A -> B -> Prop) (f : A -> B) l, (forall a, In a l -> P a (f a)) -> Forall2 P l (map f l).
Proof. induction l as [|a l IH]; intro H; constructor; [apply H; now left|]. apply IH. intros. apply H. now right. Qed.
Lemma looks_full : forall (ts : list text), ts <> [[]] -> (forall t c r, In t ts -> t = c :: r -> c <> 93) -> ts <> [] -> not_empty_looking (join ts).
Proof.
  intros ts H1 H2 H3. destruct ts as [|t ts]; [now destruct H3|]. destruct t as [|c t].
  - destruct ts as [|t' ts]; [now destruct H1|]. unfold not_empty_looking. cbn. discriminate.
  - assert (Hc : c <> 93) by (apply (H2 (c :: t) c t); [now left|reflexivity]). unfold not_empty_looking.
    destruct ts as [|t' ts]; [cbn|rewrite join_cons by discriminate; cbn]; intro E; injection E as ->; now apply Hc.
Qed.

Section Tensors.
  Context {S R : Type} {SS : Sym S} {SL : SymLaws S} {ST : SymText S} {RT : ScalarText R}.
  Context {ok : S -> Prop}.
  Hypothesis TL : is_nosym = false -> SymTextLaws S ok.
  Hypothesis plain_bose : @is_nosym S SS = true -> @is_fermi S SS = false.
  Variables (colour origin : text).
  Hypothesis origin_colon : ~ In colon origin.
  Variables (fuel : nat) (junk : R) (text_of : name -> res text) (intern : list text -> list name).

  (** ** edges *)
  Definition edge_text (e : edge S) : text :=
    if is_nosym then match emap e with sd :: _ => print_size (snd sd) | [] => [] end
    else let m := print_map print_charge print_size (emap e) in
         if is_fermi then lit "{arrow:" ++ print_bool (earrow e) ++ lit ",map:" ++ m ++ lit "}" else m.
  Lemma print_map_nil : forall {K V} (wk : K -> text) (wv : V -> text) m, print_map (fun k => wk k ++ []) wv m = print_map wk wv m.
  Proof. intros. unfold print_map. do 3 f_equal. apply map_ext. intro. now rewrite app_nil_r. Qed.
  Lemma edge_map_back : forall m p, is_nosym = false -> msorted m -> (forall s d, In (s, d) m -> ok s /\ fits d) -> length m <= fuel -> ~ In open_map p ->
    forall r, scan_map fuel scan_charge scan_mapped_size (ahead (p ++ print_map print_charge print_size m ++ r)) = Ok (m, ahead r).
  Proof.
    intros m p N Hs Hm Hf Hp r. pose proof (TL N) as TLN. rewrite <- (print_map_nil print_charge).
    apply (scan_map_back scan_charge scan_mapped_size print_charge [] print_size m m); auto.
    - assert (G : forall l, (forall x, In x l -> In x m) -> Forall2 (fun kv kv' : S * nat => fst kv = fst kv' /\
        (forall r, scan_charge (ahead (print_charge (fst kv) ++ [] ++ colon :: r)) = Ok (fst kv, ahead ([] ++ colon :: r))) /\
        forall old, scans_before (fun c => c = comma \/ c = close_map) (scan_mapped_size old) (print_size (snd kv)) (snd kv')) l l).
      { induction l as [|[s d] l IH]; intro Hl; constructor.
        - destruct (Hm s d) as [H1 H2]; [apply Hl; now left|]. cbn [fst snd]. split; [reflexivity|]. split.
          + intro r'. cbn [app]. apply charge_back; [exact H1|reflexivity].
          + intro old. unfold scan_mapped_size. eapply scans_weaken; [|apply scan_size_back; exact H2]. intros c [-> | ->]; reflexivity.
        - apply IH. intros. apply Hl. now right. }
      apply G. auto.
    - intros k v Hk. destruct (Hm k v Hk) as [H1 _]. destruct (charge_start k H1) as [c [r' [E [_ Hc]]]]. rewrite E. cbn. intro F. injection F as ->. now apply Hc.
  Qed.
  Lemma edge_print : forall e, (is_nosym = true -> emap e <> []) -> msorted (emap e) -> print_edge e = Ok (edge_text e).
  Proof.
    clear TL plain_bose. intros [a m] Hne Hs. unfold print_edge, edge_text. cbn [emap earrow] in *. destruct is_nosym eqn:N; [|reflexivity].
    destruct m as [|[s d] m]; [now exfalso; apply Hne|]. cbn [mfind]. rewrite (nosym_unit N s), eqb_refl. reflexivity.
  Qed.
  Lemma size_start : forall n, exists c r, print_size n = c :: r /\ c <> 93.
  Proof. intro n. destruct (integer_start (Z.of_nat n)) as [c [r [E [H _]]]]. eauto. Qed.
  Lemma edge_start : forall e, (is_nosym = true -> emap e <> []) -> exists c r, edge_text e = c :: r /\ c <> 93.
  Proof.
    clear TL plain_bose. intros [a m] Hne. unfold edge_text. cbn [emap earrow] in *. destruct is_nosym eqn:N.
    - destruct m as [|[s d] m]; [now exfalso; apply Hne|]. apply size_start.
    - destruct is_fermi; eexists; eexists; (split; [reflexivity|]); intro X; discriminate X.
  Qed.
  Lemma edge_back_text : forall e, (is_nosym = true -> emap e <> []) -> msorted (emap e) -> (forall s d, In (s, d) (emap e) -> ok s /\ fits d) ->
    length (edge_text e) <= fuel -> scans_before in_list (scan_edge fuel) (edge_text e) (stored_edge e).
  Proof.
    intros [a m] Hne Hs Hm Hf c r Hc. unfold scan_edge, edge_text, stored_edge in *. cbn [emap earrow] in Hne, Hs, Hm, Hf |- *. pose proof edge_map_back as EMB. destruct is_nosym eqn:N.
    - destruct m as [|[s d] m]; [now exfalso; apply Hne|]. cbn [snd].
      assert (E : (s, d) :: m = [(s, d)]) by (apply (nosym_map_one N _ s d Hs); now left). injection E as ->.
      unfold scan_mapped_size. rewrite (scan_size_back 0 d); [|apply (Hm s d); now left|destruct Hc as [-> | ->]; reflexivity].
      cbn [bind fst snd]. now rewrite (nosym_unit N s), (plain_bose eq_refl).
    - destruct is_fermi eqn:F.
      + assert (Lm : length m <= fuel).
        { rewrite !app_length in Hf. pose proof (print_map_count print_charge print_size m). lia. }
        rewrite <- !app_assoc. change (lit "{arrow:") with (lit "{arrow" ++ [colon]). rewrite <- app_assoc. cbn [app].
        change ([colon] ++ ?x) with (colon :: x). rewrite (ignore_app colon (lit "{arrow")); [|cbn; unfold colon; lia].
        change (lit ",map:") with (comma :: lit "map:"). cbn [app]. rewrite (scan_bool_back false a comma) by reflexivity. cbn [bind fst snd].
        change (comma :: lit "map:" ++ print_map print_charge print_size m ++ lit "}" ++ c :: r) with ((comma :: lit "map:") ++ print_map print_charge print_size m ++ close_map :: c :: r).
        rewrite (EMB m (comma :: lit "map:")) by (auto; vm_compute; intuition discriminate). cbn [bind fst snd]. reflexivity.
      + assert (Lm : length m <= fuel) by (pose proof (print_map_count print_charge print_size m); lia).
        cbn [bind fst snd]. pose proof (EMB m [] eq_refl Hs Hm Lm (fun x => x)) as E. cbn [app] in E. rewrite E. reflexivity.
  Qed.

  (** ** blocks *)
  Lemma block_back : forall b, (forall x, In x b -> readable x) -> length b <= fuel ->
    exists b', Forall2 same_text b b' /\ forall p, ~ In open_list p -> forall r, scan_block fuel junk (ahead (p ++ print_block b ++ r)) = Ok (b', ahead r).
  Proof.
    intros b Hb Hf.
    destruct (Forall2_exists (fun x y : R => print_scalar y = print_scalar x /\ scans_before in_list (scan_scalar junk) (print_scalar x) y) b) as [b' Hb'].
    { intros x Hx. destruct (Hb x Hx) as [_ [y [E H]]]. exists y. split; [exact E|]. apply H. }
    exists b'. split; [eapply Forall2_imp; [|exact Hb']; intros x y _ [H _]; now symmetry|].
    intros p Hp r. unfold scan_block, print_block. apply scan_list_back; auto.
    - eapply Forall2_imp; [|exact Hb']. intros x y _ [_ H]. exact H.
    - intro Hne. apply looks_full.
      + destruct b as [|x b]; [now destruct Hne|]. destruct (Hb x (or_introl eq_refl)) as [[c [t [E _]]] _]. cbn [map]. rewrite E. discriminate.
      + intros t c t' Ht Et. apply in_map_iff in Ht as [x [<- Hx]]. destruct (Hb x Hx) as [[c0 [t0 [E H]]] _]. rewrite E in Et. injection Et as -> ->. exact H.
      + destruct b; [now destruct Hne|discriminate].
  Qed.
  Definition key_text (key : list S) : text := colour ++ print_list print_charge key.
  (** keys that the reader finds in the colours *)
  Definition key_reads (key : list S) : Prop :=
    forall r, scan_list fuel scan_charge (ahead (key_text key ++ origin ++ colon :: r)) = Ok (key, ahead (origin ++ colon :: r)).
  Definition blocks_text (blocks : list (list S * list R)) : text :=
    if is_nosym then match blocks with kb :: _ => print_block (snd kb) | [] => [] end
    else print_map (fun key => key_text key ++ origin) print_block blocks.
  Lemma key_texts : forall blocks : list (list S * list R),
    print_map (fun key => colour ++ print_list print_charge key ++ origin) print_block blocks = print_map (fun key => key_text key ++ origin) print_block blocks.
  Proof. intro. unfold print_map. do 3 f_equal. apply map_ext. intro. unfold key_text. now rewrite <- !app_assoc. Qed.
  Lemma block_map_back : forall {K} {OK : Ord K} {OL : OrdLaws K} (key : scanner K) (wk : K -> text) (blocks : list (K * list R)), msorted blocks ->
    length (print_map (fun k => wk k ++ origin) print_block blocks) <= fuel ->
    (forall k b, In (k, b) blocks -> (forall r, key (ahead (wk k ++ origin ++ colon :: r)) = Ok (k, ahead (origin ++ colon :: r))) /\
       hd_error (wk k ++ origin ++ [colon]) <> Some close_map /\ forall x, In x b -> readable x) ->
    exists blocks', Forall2 (fun kb kb' => fst kb = fst kb' /\ Forall2 same_text (snd kb) (snd kb')) blocks blocks' /\
      forall p, ~ In open_map p -> forall r,
      scan_map fuel key (fun _ => scan_block fuel junk) (ahead (p ++ print_map (fun k => wk k ++ origin) print_block blocks ++ r)) = Ok (blocks', ahead r).
  Proof.
    intros K OK OL key wk blocks Hs Hf Hb.
    destruct (Forall2_exists (fun kb kb' : K * list R => fst kb = fst kb' /\ Forall2 same_text (snd kb) (snd kb') /\ scans (scan_block fuel junk) (print_block (snd kb)) (snd kb')) blocks) as [bs' Hbs].
    { intros [k b] Hkb. destruct (Hb k b Hkb) as [_ [_ H]]. destruct (block_back b H) as [b' [H1 H2]].
      - pose proof (print_map_part (fun k => wk k ++ origin) print_block blocks k b Hkb). pose proof (print_list_count print_scalar b). unfold print_block in *. lia.
      - exists (k, b'). cbn [fst snd]. split; [reflexivity|]. split; [exact H1|]. intro r. apply (H2 []). intros []. }
    exists bs'. split; [eapply Forall2_imp; [|exact Hbs]; intros x y _ [H1 [H2 _]]; auto|].
    intros p Hp r. apply scan_map_back; auto.
    - eapply Forall2_imp; [|exact Hbs]. intros [k b] [k' b'] Hkb [H1 [H2 H3]]. cbn [fst snd] in *. subst k'. split; [reflexivity|]. split; [apply (Hb k b Hkb)|].
      intro old. now apply scans_any.
    - intros k v Hk. apply (Hb k v Hk).
    - pose proof (print_map_count (fun k => wk k ++ origin) print_block blocks). lia.
    - unfold msorted in *. replace (map fst bs') with (map fst blocks); [exact Hs|]. clear - Hbs. induction Hbs as [|x y l l' [H _] F IH]; [reflexivity|]. cbn. now rewrite H, IH.
  Qed.
  Hypothesis colour_start : hd_error colour <> Some close_map.
  Lemma colour_hd : forall (t : text) c, c <> close_map -> hd_error (colour ++ c :: t) <> Some close_map.
  Proof. intros t c Hc. destruct colour as [|d l]; cbn in *; [intro E; injection E as ->; now apply Hc|exact colour_start]. Qed.

  Definition title (s : string) : text := console_green ++ lit s ++ console_origin.
  Lemma title_colon : ~ In colon (open_map :: title "names"%string) /\ ~ In colon (comma :: title "edges"%string) /\ ~ In colon (comma :: title "blocks"%string).
  Proof. repeat split; vm_compute; intuition discriminate. Qed.
  Definition tensor_text (texts : list text) (t : tensor S R) : text :=
    (open_map :: title "names"%string) ++ colon :: print_list (fun x => x) texts ++ (comma :: title "edges"%string) ++ colon :: print_list (fun x => x) (map edge_text (t_edges t))
    ++ (comma :: title "blocks"%string) ++ colon :: blocks_text (t_blocks t) ++ [close_map].
  Lemma show_ok : forall t texts, wf_tensor t -> has_dimensions t -> mapM text_of (t_names t) = Ok texts ->
    show_tensor colour origin text_of t = Ok (tensor_text texts t).
  Proof.
    clear TL plain_bose. intros t texts W Hd Hn. unfold show_tensor. rewrite Hn. cbn [bind]. rewrite (mapM_ok _ edge_text).
    - cbn [bind]. unfold print_blocks, tensor_text, blocks_text. destruct is_nosym eqn:N.
      + destruct (plain_one_block t W Hd N) as [b ->]. cbn [hd_error get_or_ub bind snd]. reflexivity.
      + cbn [bind]. rewrite key_texts. reflexivity.
    - intros e He. apply edge_print; [intro N; now apply (Hd N)|now apply (edges_sorted t W)].
  Qed.
  Lemma names_back : forall texts p, readable_names texts -> length texts <= fuel -> ~ In open_list p ->
    forall r, scan_list fuel scan_name (ahead (p ++ print_list (fun x => x) texts ++ r)) = Ok (texts, ahead r).
  Proof.
    intros texts p [H1 H2] Hf Hp r. apply scan_list_back; auto.
    - clear H2 Hf. assert (G : forall l, (forall t, In t l -> In t texts) -> Forall2 (fun a b => scans_before in_list scan_name a b) l l).
      { induction l as [|t l IH]; intro Hl; constructor; [|apply IH; intros; apply Hl; now right]. destruct (H1 t) as [A B]; [apply Hl; now left|]. now apply scan_name_back. }
      now apply G.
    - rewrite map_id. intro Hne. apply looks_full; auto. intros t c r' Ht -> E. destruct (H1 _ Ht) as [A _]. destruct (A c (or_introl eq_refl)) as [_ [_ [_ G]]]. now apply G.
  Qed.
  Lemma edges_back : forall t p, wf_tensor t -> has_dimensions t -> printable ok t -> length (print_list (fun x => x) (map edge_text (t_edges t))) <= fuel -> ~ In open_list p ->
    forall r, scan_list fuel (scan_edge fuel) (ahead (p ++ print_list (fun x => x) (map edge_text (t_edges t)) ++ r)) = Ok (map stored_edge (t_edges t), ahead r).
  Proof.
    intros t p W Hd [Hp1 _] Hf Hp r.
    replace (print_list (fun x : text => x) (map edge_text (t_edges t))) with (print_list edge_text (t_edges t)) in * by (unfold print_list; now rewrite map_map).
    assert (Hdim : forall e, In e (t_edges t) -> is_nosym = true -> emap e <> []) by (intros e He N; now apply (Hd N)).
    apply scan_list_back; auto.
    - apply Forall2_map_r. intros e He. apply edge_back_text; auto.
      + now apply (edges_sorted t W).
      + intros s d Hsd. now apply (Hp1 e).
      + pose proof (print_list_part edge_text (t_edges t) e He). lia.
    - pose proof (print_list_count edge_text (t_edges t)). lia.
    - intro Hne. apply looks_full.
      + destruct (t_edges t) as [|e es] eqn:E; [now destruct Hne|]. destruct (edge_start e) as [c [r' [G _]]]; [apply Hdim; now left|]. cbn [map]. rewrite G. discriminate.
      + intros x c r' Hx Ex. apply in_map_iff in Hx as [e [<- He]]. destruct (edge_start e (Hdim e He)) as [c0 [r0 [G Hc]]]. rewrite G in Ex. injection Ex as -> ->. exact Hc.
      + destruct (t_edges t); [now destruct Hne|discriminate].
  Qed.
  Lemma blocks_back : forall t, wf_tensor t -> has_dimensions t -> printable ok t -> length (blocks_text (t_blocks t)) <= fuel ->
    (is_nosym = false -> forall k b, In (k, b) (t_blocks t) -> key_reads k) ->
    exists bs', Forall2 (fun kb kb' => fst kb = fst kb' /\ Forall2 same_text (snd kb) (snd kb')) (t_blocks t) bs' /\
      forall r, scan_blocks fuel junk (length (t_names t)) (ahead (blocks_text (t_blocks t) ++ r)) = Ok (bs', ahead r).
  Proof.
    intros t W Hd [_ Hp2] Hf Hk. unfold scan_blocks, blocks_text in *. destruct is_nosym eqn:N.
    - destruct (plain_one_block t W Hd N) as [b E]. rewrite E in *. cbn [snd] in *. destruct (block_back b) as [b' [H1 H2]].
      + intros x Hx. apply (Hp2 (repeat szero (length (t_names t))) b); [now left|exact Hx].
      + pose proof (print_list_count print_scalar b). unfold print_block in Hf. lia.
      + exists [(repeat szero (length (t_names t)), b')]. split; [constructor; [|constructor]; split; [reflexivity|exact H1]|].
        intro r. pose proof (H2 [] (fun x => x) r) as H3. cbn [app] in H3. rewrite H3. reflexivity.
    - destruct (block_map_back (scan_list fuel scan_charge) key_text (t_blocks t)) as [bs' [H1 H2]]; auto.
      + destruct (wf_tcore t W) as [Hs Hb _]. unfold msorted, t_blocks. rewrite <- shape_keys, Hb. exact (block_list_sorted _ Hs).
      + intros k b Hkb. split; [now apply (Hk eq_refl k b)|]. split; [|intros x Hx; now apply (Hp2 k b)].
        unfold key_text, print_list. rewrite <- app_assoc. cbn [app]. apply colour_hd. discriminate.
      + exists bs'. split; [exact H1|]. intro r. apply (H2 []). intros [].
  Qed.
  (** everything up to the blocks *)
  Lemma scan_head : forall t texts, wf_tensor t -> has_dimensions t -> interned text_of intern (t_names t) texts -> readable_names texts -> printable ok t ->
    length (tensor_text texts t) <= fuel -> length (blocks_text (t_blocks t)) <= fuel /\ forall r, scan_tensor fuel junk intern (ahead (tensor_text texts t ++ r))
    = bind (scan_blocks fuel junk (length (t_names t)) (ahead (blocks_text (t_blocks t) ++ close_map :: r))) (fun bs =>
      Ok (mkTensor (t_names t) (mkCore (map stored_edge (t_edges t)) (fst bs)), ignore close_map (snd bs))).
  Proof.
    intros t texts W Hd [Hn1 Hn2] Hn Hp Hf. destruct title_colon as [T1 [T2 T3]].
    assert (Hf' : length (print_list (fun x => x) texts) + length (print_list (fun x => x) (map edge_text (t_edges t))) + length (blocks_text (t_blocks t)) <= fuel).
    { unfold tensor_text in Hf. rewrite !app_length in Hf. cbn [length] in Hf. rewrite !app_length in Hf. cbn [length] in Hf. rewrite !app_length in Hf. cbn [length] in Hf. rewrite app_length in Hf. lia. }
    split; [lia|]. intro r. unfold scan_tensor, tensor_text. rewrite <- !app_assoc.
    change ((colon :: ?a) ++ ?b) with (colon :: a ++ b). rewrite <- !app_assoc. change ((colon :: ?a) ++ ?b) with (colon :: a ++ b). rewrite <- !app_assoc.
    change ((colon :: ?a) ++ ?b) with (colon :: a ++ b). rewrite <- !app_assoc.
    rewrite ignore_app by exact T1.
    pose proof (print_list_count (fun x : text => x) texts) as Lt.
    pose proof (names_back texts [] Hn ltac:(lia) (fun x => x)) as Rn. cbn [app] in Rn. rewrite Rn. cbn [bind fst snd]. rewrite Hn2, ignore_app by exact T2.
    pose proof (edges_back t [] W Hd Hp ltac:(lia) (fun x => x)) as Re. cbn [app] in Re. rewrite Re. cbn [bind fst snd].
    rewrite check_valid_ok; [|apply (wf_nodup t W)|rewrite map_length; apply (wf_rank t W)]. cbn [bind].
    rewrite ignore_app by exact T3. reflexivity.
  Qed.
  Theorem text_round_trip : forall t texts, wf_tensor t -> has_dimensions t -> interned text_of intern (t_names t) texts -> readable_names texts -> printable ok t ->
    length (tensor_text texts t) <= fuel -> (is_nosym = false -> forall k b, In (k, b) (t_blocks t) -> key_reads k) ->
    exists t', shown_alike t t' /\ scans (scan_tensor fuel junk intern) (tensor_text texts t) t'.
  Proof.
    intros t texts W Hd Hi Hn Hp Hf Hk. destruct (scan_head t texts W Hd Hi Hn Hp Hf) as [Hf' Hhead].
    destruct (blocks_back t W Hd Hp Hf' Hk) as [bs' [H1 H2]].
    exists (mkTensor (t_names t) (mkCore (map stored_edge (t_edges t)) bs')). split.
    { split; [reflexivity|]. split; [apply (stored_same t)|exact H1]. }
    intro r. rewrite Hhead, H2. cbn [bind fst snd].
    change (close_map :: r) with ([] ++ close_map :: r). rewrite ignore_app by (intros []). reflexivity.
  Qed.
End Tensors.
