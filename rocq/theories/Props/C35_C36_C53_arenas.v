(** C35: scratch allocations never overlap.  C36: scratch arenas nest like a stack.  C53: what goes wrong outside of C35.
    [apart], [inside], [owned], [honest]: Spec/Memory.v. *)
From Coq Require Import List ZArith Permutation Lia.
From Verif Require Import Base.Outcome Model.Arena Model.Scopes Spec.Memory Spec.Nesting Proof.ArenaFacts Proof.ScopesFacts.
Import ListNotations.
Open Scope Z_scope.

(** ** C35.  For every initial buffer and every history of non-empty requests and releases: the ranges handed out since the last release are
    pairwise disjoint, aligned, and inside the memory the arena owns; every buffer obtained from upstream is held or has been given back, once. *)
Theorem C35_allocations_disjoint : forall buffer size, 0 <= buffer -> 0 <= size -> buffer + size <= word -> size < word ->
  exists s0, new_session buffer size = Ok s0 /\ forall requests, honest s0 requests ->
  exists s, serve_all s0 requests = Ok s /\
    ForallOrdPairs (fun l m => apart (fst (fst l)) (snd (fst l)) (fst (fst m)) (snd (fst m))) (live s) /\
    Forall (fun l => (fst (fst l)) mod (snd l) = 0 /\ exists b, In b (owned (ar s)) /\ inside (fst (fst l)) (snd (fst l)) (fst b) (snd b)) (live s) /\
    Permutation (obtained s) (held (ar s) ++ returned s).
Proof. exact arena_disjoint. Qed.
Print Assumptions C35_allocations_disjoint.
(** an initial buffer of 40 bytes at 1001, overflowing into two upstream buffers, with a failed request and a release in between *)
Example C35_example :
  let requests := [Alloc 10 8 None; Alloc 3 4 None; Alloc 100 16 (Some 4096); Release; Alloc 17 2 None; Alloc 5000 1 None; Alloc 300 8 (Some 8192); Alloc 1 16 None] in
  match new_session 1001 40 with
  | Ok s0 => honest s0 requests /\ match serve_all s0 requests with
     | Ok s => live s = [(8496, 1, 16); (8192, 300, 8); (1002, 17, 2)] /\ held (ar s) = [(8192, 8192)] /\ returned s = [(4096, 256)] /\ next_size (ar s) = 16384
     | _ => False end
  | _ => False
  end.
Proof.
  cbn [new_session new_arena]. split; [|vm_compute; repeat split; reflexivity].
  cbn [honest]. 
  repeat match goal with
  | |- _ /\ _ => split
  | |- forall s', _ = Ok s' -> _ => let H := fresh in intros ? H; vm_compute in H; injection H as <-
  | |- ordinary _ _ => split; [split; reflexivity|cbn; auto 6]
  | |- forall p n, _ => let H := fresh in let H1 := fresh in intros ? ? H H1; vm_compute in H1; injection H1 as <-; try discriminate H; injection H as <-; intros _
  | |- fresh_memory _ _ _ => unfold fresh_memory
  | |- True => exact I
  | |- _ mod _ = 0 => reflexivity
  | |- _ <= _ => vm_compute; discriminate
  | |- Forall _ _ => repeat constructor; cbn [fst snd]; intros x [[A B] [C D]]; cbn in *; lia
  end.
Qed.

(** ** C36.  Whatever a program does with scopes, and whether it ends normally or by an exception, the default resource is afterwards what it was. *)
Theorem C36_default_restored : forall p st, exists st', run_scopes st (fst (execute p)) = Ok st' /\ default st' = default st.
Proof. exact program_restores. Qed.
Print Assumptions C36_default_restored.
(** every use of the default resource is served by the innermost scope open at that moment, and the arena of each scope draws on the
    next outer one *)
Theorem C36_innermost_serves : forall es st, run_scopes initially es = Ok st ->
  served st = innermost 0 [] es /\
  forall i id saved up, nth_error (scopes st) i = Some (id, saved, up) -> up = saved /\ saved = hd 0%nat (map (fun x => fst (fst x)) (skipn (S i) (scopes st))).
Proof. exact scopes_served. Qed.
Print Assumptions C36_innermost_serves.
Example C36_example :
  let p := Then (Scope (Then UseDefault (Catch (Scope (Then (Scope (Then UseDefault Raise)) UseDefault))))) (Then UseDefault (Scope UseDefault)) in
  match run_scopes initially (fst (execute p)) with Ok st => default st = 0%nat /\ served st = [4; 0; 3; 1]%nat | _ => False end.
Proof. vm_compute. split; reflexivity. Qed.

(** ** C53.  Full statement, false of the code: empty requests and alignments above 16 are served like all others. *)
Definition C53_empty_claim : Prop := forall s0 requests s, new_session 1000 1 = Ok s0 ->
  Forall (fun r => match r with Alloc bytes al _ => 0 <= bytes < word /\ In al [1; 2; 4; 8; 16] | Release => True end) requests ->
  serve_all s0 requests = Ok s ->
  Forall (fun l => 0 < snd (fst l) -> exists b, In b (owned (ar s)) /\ inside (fst (fst l)) (snd (fst l)) (fst b) (snd b)) (live s).
(** after an empty request whose padding exceeds the rest of the buffer the size left wraps around, and memory outside is handed out *)
Theorem C53_empty_request_refuted : ~ C53_empty_claim.
Proof.
  intro C. set (rs := [Alloc 0 16 None; Alloc 100 1 None]).
  destruct (serve_all (mkSession (mkArena [] 1000 1 256 1000 1) [] [] []) rs) as [s| | |] eqn:E; try discriminate.
  specialize (C _ rs s eq_refl). vm_compute in E. injection E as <-.
  assert (H : Forall (fun r => match r with Alloc bytes al _ => 0 <= bytes < word /\ In al [1; 2; 4; 8; 16] | Release => True end) rs).
  { repeat constructor; cbn; auto 6; discriminate. }
  specialize (C H eq_refl). inversion C as [|l ls C1 _]; subst. destruct (C1 eq_refl) as [b [[<-|[]] [I1 I2]]]. cbn in I2. apply I2. reflexivity.
Qed.
Print Assumptions C53_empty_request_refuted.
Definition C53_alignment_claim : Prop := forall a bytes al p a' q, 0 < bytes < word -> al = 32 -> fresh_memory a p 256 ->
  increase_to 64 (next_size a) bytes = Ok 256 -> allocate a bytes al (Some p) = Ok (a', Some q) -> q mod al = 0.
Theorem C53_large_alignment_refuted : ~ C53_alignment_claim.
Proof.
  intro C. specialize (C (mkArena [] 1000 8 256 1000 8) 8 32 4112 (mkArena [(4112, 256)] 4120 248 512 1000 8) 4112 (conj eq_refl eq_refl) eq_refl).
  assert (F : fresh_memory (mkArena [] 1000 8 256 1000 8) 4112 256).
  { split; [reflexivity|]. split; [discriminate|]. split; [discriminate|]. repeat constructor. intros x [[A B] [D E]]. cbn in *. lia. }
  specialize (C F eq_refl eq_refl). discriminate.
Qed.
Print Assumptions C53_large_alignment_refuted.
