(** The default memory resource and scope_resource.  include/TAT/pmr_resource.hpp:178-187, 241-254.
    Resources are numbered: 0 is the new/delete resource, every scope object gets the next number. *)
From Coq Require Import List Arith.
From Verif Require Import Base.Outcome.
Import ListNotations.

(** default: default_resource (179).  scopes: the scope objects that exist, innermost first, with the resource each saved
    (member upstream, 250) and the upstream of its arena (member m_upstream, 85 with 96: also taken from the default) *)
Record resources := mkResources { default : nat; scopes : list (nat * nat * nat); counter : nat; served : list nat }.
Definition initially : resources := mkResources 0 [] 1 [].

(** set_default_resource, 183-187 *)
Definition set_default (st : resources) (r : nat) : resources * nat :=
  (mkResources r (scopes st) (counter st) (served st), default st).

(** scope_resource(), 251: the member resource is constructed first and takes the default as upstream, then the default is replaced *)
Definition enter (st : resources) : resources :=
  let id := counter st in
  let arena_upstream := default st in
  let (st', saved) := set_default st id in
  mkResources (default st') ((id, saved, arena_upstream) :: scopes st') (S id) (served st').

(** ~scope_resource(), 252-254.  C++ destroys automatic objects in reverse order of construction: the innermost one *)
Definition leave (st : resources) : res resources :=
  match scopes st with
  | (_, saved, _) :: rest => let (st', _) := set_default st saved in Ok (mkResources (default st') rest (counter st') (served st'))
  | [] => UB
  end.

(** a container constructed with the default allocator (191, 204): remember which resource it uses *)
Definition use (st : resources) : resources := mkResources (default st) (scopes st) (counter st) (default st :: served st).

Inductive scope_event : Type := Enter | Leave | Use.
Definition scope_step (st : resources) (e : scope_event) : res resources :=
  match e with Enter => Ok (enter st) | Leave => leave st | Use => Ok (use st) end.
Definition run_scopes (st : resources) (es : list scope_event) : res resources := foldM scope_step es st.

(** programs with automatic scope objects and exceptions: events until the end or until the exception leaves the program *)
Inductive program : Type :=
| Nothing | UseDefault | Raise
| Then (p q : program)
| Catch (p : program)          (* try { p } catch (...) {} *)
| Scope (body : program).      (* { scope_resource<> scope; body } *)
Fixpoint execute (p : program) : list scope_event * bool :=
  match p with
  | Nothing => ([], false)
  | UseDefault => ([Use], false)
  | Raise => ([], true)
  | Then p q => let (e1, x1) := execute p in if x1 then (e1, true) else let (e2, x2) := execute q in (e1 ++ e2, x2)
  | Catch p => (fst (execute p), false)
  | Scope body => let (e, x) := execute body in (Enter :: e ++ [Leave], x)
  end.
