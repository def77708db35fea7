From Coq Require Import List Arith Lia.
From Verif Require Import Base.Outcome Model.Scopes Spec.Nesting.
Import ListNotations.

Lemma nested_app : forall a b, nested a -> nested b -> nested (a ++ b).
Proof.
  intros a b Ha Hb. induction Ha; [exact Hb|constructor; exact IHHa|]. cbn [app]. rewrite <- app_assoc. cbn [app]. constructor; assumption.
Qed.
Lemma execute_nested : forall p, nested (fst (execute p)).
Proof.
  induction p as [| | |p IHp q IHq|p IHp|p IHp]; cbn [execute]; try (constructor; fail).
  - constructor. constructor.
  - destruct (execute p) as [e1 [|]]; [exact IHp|]. destruct (execute q) as [e2 x2]. now apply nested_app.
  - exact IHp.
  - destruct (execute p) as [e x]. cbn [fst] in *. constructor; [exact IHp|constructor].
Qed.
Lemma nested_restores : forall es, nested es -> forall st, exists st', run_scopes st es = Ok st' /\ default st' = default st /\ scopes st' = scopes st.
Proof.
  intros es H. induction H as [|es H IH|inner es H1 IH1 H2 IH2]; intro st.
  - exists st. repeat split.
  - destruct (IH (use st)) as [st' [E1 [E2 E3]]]. exists st'. split; [exact E1|]. split; [exact E2|exact E3].
  - destruct (IH1 (enter st)) as [s1 [E1 [E2 E3]]]. unfold run_scopes in *. cbn [foldM scope_step bind]. rewrite foldM_app, E1. cbn [bind foldM scope_step].
    assert (EL : leave s1 = Ok (mkResources (default st) (scopes st) (counter s1) (served s1))) by (unfold leave; rewrite E3; reflexivity). rewrite EL. cbn [bind].
    destruct (IH2 (mkResources (default st) (scopes st) (counter s1) (served s1))) as [s2 [F1 [F2 F3]]]. exists s2. rewrite F1. auto.
Qed.
Lemma program_restores : forall p st, exists st', run_scopes st (fst (execute p)) = Ok st' /\ default st' = default st.
Proof. intros p st. destruct (nested_restores _ (execute_nested p) st) as [st' [E1 [E2 _]]]. eauto. Qed.

(** every use is served by the innermost open scope *)
Definition chain (st : resources) : Prop :=
  default st = hd 0 (map (fun x => fst (fst x)) (scopes st)) /\ 1 <= counter st /\
  forall i x, nth_error (scopes st) i = Some x -> snd (fst x) = hd 0 (map (fun x => fst (fst x)) (skipn (S i) (scopes st))) /\ snd x = snd (fst x).
Lemma chain_step : forall st e st', chain st -> scope_step st e = Ok st' -> chain st'.
Proof.
  intros st e st' [C1 [C2 C3]] H. destruct e; cbn [scope_step] in H.
  - injection H as <-. cbn [enter set_default]. split; [reflexivity|]. split; [cbn; lia|]. intros [|i] x Hx; cbn [scopes nth_error skipn] in *.
    + injection Hx as <-. cbn [fst snd]. split; [exact C1|reflexivity].
    + apply C3. exact Hx.
  - unfold leave in H. destruct (scopes st) as [|[[id saved] up] rest] eqn:E; [discriminate|]. cbn [set_default default scopes] in H. injection H as <-.
    split; [|split; [exact C2|]]; cbn [default scopes counter].
    + exact (proj1 (C3 0 _ eq_refl)).
    + intros i x Hx. exact (C3 (S i) x Hx).
  - injection H as <-. split; [exact C1|]. split; [exact C2|exact C3].
Qed.
Lemma served_spec : forall es st st', chain st -> run_scopes st es = Ok st' ->
  served st' = innermost (counter st - 1) (map (fun x => fst (fst x)) (scopes st)) es ++ served st /\ chain st'.
Proof.
  induction es as [|e es IH]; intros st st' C H; [injection H as <-; split; [reflexivity|exact C]|].
  unfold run_scopes in H. cbn [foldM] in H. destruct (scope_step st e) as [s1| | |] eqn:E; try discriminate. cbn [bind] in H.
  destruct (IH s1 st' (chain_step st e s1 C E) H) as [I1 I2]. split; [|exact I2]. rewrite I1. destruct C as [C1 [C2 C3]]. destruct e; cbn [scope_step] in E.
  - injection E as <-. cbn [enter set_default counter scopes map fst snd innermost served default]. replace (S (counter st - 1)) with (counter st) by lia.
    replace (S (counter st) - 1) with (counter st) by lia. reflexivity.
  - unfold leave in E. destruct (scopes st) as [|[[id saved] up] rest]; [discriminate|]. cbn [set_default default scopes] in E. injection E as <-. reflexivity.
  - injection E as <-. cbn [use counter scopes served innermost]. rewrite <- app_assoc. rewrite C1. reflexivity.
Qed.
Lemma initially_chain : chain initially.
Proof. split; [reflexivity|]. split; [cbn; lia|]. intros [|i] x Hx; discriminate. Qed.
Lemma scopes_served : forall es st, run_scopes initially es = Ok st ->
  served st = innermost 0 [] es /\
  forall i id saved up, nth_error (scopes st) i = Some (id, saved, up) -> up = saved /\ saved = hd 0 (map (fun x => fst (fst x)) (skipn (S i) (scopes st))).
Proof.
  intros es st H. destruct (served_spec es initially st initially_chain H) as [E [_ [_ C]]]. split; [rewrite E; apply app_nil_r|].
  intros i id saved up Hi. destruct (C i _ Hi) as [A B]. cbn in A, B. auto.
Qed.
