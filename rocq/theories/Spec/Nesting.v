(** Nesting of scopes, independent of the default pointer: for every use, how many scopes around it are open and which. *)
From Coq Require Import List Arith.
From Verif Require Import Model.Scopes.
Import ListNotations.

(** the innermost open scope at each use, latest first; [opened]: number of scopes opened so far, [open]: the open ones, innermost first *)
Fixpoint innermost (opened : nat) (open : list nat) (es : list scope_event) : list nat :=
  match es with
  | [] => []
  | Enter :: es' => innermost (S opened) (S opened :: open) es'
  | Leave :: es' => innermost opened (tl open) es'
  | Use :: es' => innermost opened open es' ++ [hd 0 open]
  end.

(** properly nested *)
Inductive nested : list scope_event -> Prop :=
| nested_nil : nested []
| nested_use : forall es, nested es -> nested (Use :: es)
| nested_scope : forall inner es, nested inner -> nested es -> nested (Enter :: inner ++ Leave :: es).
