(** C27: names are interned one-to-one.  C52: loading a name table. *)
From Coq Require Import List Arith.
From Verif Require Import Base.Outcome Model.Names Proof.NamesFacts.
Import ListNotations.

(** ** C27.  After any history of name creations the i-th name obtained has, now and therefore at every later time, the i-th string, and two
    names obtained are equal exactly when their strings are. *)
Theorem C27_interning :
  forall (history : list text) i s, nth_error history i = Some s ->
  let (table, names) := new_names fresh_dataset history in
  exists a, nth_error names i = Some a /\ name_text table a = Ok s /\
    forall j t b, nth_error history j = Some t -> nth_error names j = Some b -> (a = b <-> s = t).
Proof. intros h i s. pose proof (intern_fresh h i s) as H. destruct (new_names fresh_dataset h). exact H. Qed.
Print Assumptions C27_interning.
(** the string of a name never changes, whatever else is created *)
Theorem C27_string_stable : forall table history a s, name_text table a = Ok s -> name_text (fst (new_names table history)) a = Ok s.
Proof. exact text_stable. Qed.
Print Assumptions C27_string_stable.
Theorem C27_total_order : forall a b c, (name_eq a b = true <-> a = b) /\ name_less a a = false /\
  (name_less a b = true -> name_less b c = true -> name_less a c = true) /\ (a = b \/ name_less a b = true \/ name_less b a = true).
Proof. exact name_order. Qed.
Print Assumptions C27_total_order.
(** a process that loads the table saved by another has exactly the table of the other *)
Theorem C27_table_round_trip : forall history, let table := fst (new_names fresh_dataset history) in load_table (dump_table table) = table.
Proof. exact load_dump_fresh. Qed.
Print Assumptions C27_table_round_trip.
Example C27_example : let h := [[76]; [82]; [76]; []; [82; 49]; [82]] in
  new_names fresh_dataset h = (mkDataset 4 [([], 0); ([76], 1); ([82], 2); ([82; 49], 3)] [[]; [76]; [82]; [82; 49]], [1; 2; 1; 0; 3; 2]) /\
  load_table [[]; [76]; [82]; [82; 49]] = fst (new_names fresh_dataset h).
Proof. split; reflexivity. Qed.

(** ** C52.  Full statement, false of the code: loading replaces the table, also under names created since it was saved. *)
Definition C52_claim : Prop := forall h1 h2 a s,
  let saved := fst (new_names fresh_dataset h1) in let now := fst (new_names saved h2) in
  name_text now a = Ok s -> name_text (load_table (dump_table saved)) a = Ok s.
Theorem C52_load_keeps_names_refuted : ~ C52_claim.
Proof. intro C. specialize (C [[76]] [[82]] 2 [82] eq_refl). discriminate. Qed.
Print Assumptions C52_load_keeps_names_refuted.
(** the name then is dangling, and gets another string when the next name is created *)
Theorem C52_name_changes_refuted : exists saved now a, saved = fst (new_names fresh_dataset [[76]]) /\ now = fst (new_names saved [[82]]) /\
  name_text now a = Ok [82] /\ name_text (load_table (dump_table saved)) a = UB /\ name_text (fst (new_name (load_table (dump_table saved)) [85])) a = Ok [85].
Proof. do 2 eexists. exists 2. repeat split; reflexivity. Qed.
Print Assumptions C52_name_changes_refuted.
(** what holds: loading a table that extends the present one keeps all names *)
Theorem C52_load_keeps_names_partial : forall h1 h2 a s,
  let other := fst (new_names (fst (new_names fresh_dataset h1)) h2) in
  name_text (fst (new_names fresh_dataset h1)) a = Ok s -> name_text (load_table (dump_table other)) a = Ok s.
Proof. exact load_extends. Qed.
Print Assumptions C52_load_keeps_names_partial.
