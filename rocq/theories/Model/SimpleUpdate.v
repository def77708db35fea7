(** The simple update.  include/square/simple_update_lattice.hpp.
    Tensors (T), environments (S), operators (H) and their exponentials (U) are abstract: the tensor operations the update is made of are
    parameters, total (a local update that throws would leave the other processes waiting).  The output to the terminal is left out. *)
From Coq Require Import String List Bool Arith ZArith.
From Verif Require Import Base.Outcome Base.SMap Model.Symmetry Model.Schedule Model.Lazy Model.Mpi.
Import ListNotations.
Open Scope Z_scope.

Inductive side := SideL | SideU | SideD | SideR.

Section SimpleUpdate.
  Context {T S U : Type}.
  (** tensor.multiple(environment, side, 'u' or 'v', division), 305-320 *)
  Variable multiple : T -> S -> side -> bool -> T.
  (** lattice.contract(updater, {{"P", "I0"}}).edge_rename({{"O0", "P"}}), 233 *)
  Variable site_update : T -> U -> T.
  (** qr of both tensors, contraction with the operator, svd and division of s by its norm, contraction with the q tensors: 247-255, 261;
      280-288, 294.  The boolean: horizontal *)
  Variable bond_update : bool -> T -> T -> U -> T * S * T.
  (** u /= u.norm<-1>(), 259, 265, 292, 298 *)
  Variable normalized : T -> T.

  Record network := mkNetwork { lattice : list (list T); environment : list (bond * S) }.
  Definition lookup (x y : Z) (l : list (list T)) : option T :=
    if (x <? 0) || (y <? 0) then None else match nth_error l (Z.to_nat x) with Some row => nth_error row (Z.to_nat y) | None => None end.
  Definition store (x y : Z) (t : T) (l : list (list T)) : list (list T) := update (Z.to_nat x) (update (Z.to_nat y) (fun _ => t)) l.
  (** lattice[x][y], and assignment to it (which is defined where the value is) *)
  Definition get_site (n : network) (x y : Z) : res T := get_or_ub (lookup x y (lattice n)).
  Definition set_site (n : network) (x y : Z) (t : T) : res network :=
    bind (get_site n x y) (fun _ => Ok (mkNetwork (store x y t (lattice n)) (environment n))).
  Definition set_environment (n : network) (b : bond) (s : S) : network := mkNetwork (lattice n) (mset b s (environment n)).

  (** try_multiple, 302-324 *)
  Definition try_multiple (n : network) (t : T) (i j : Z) (direction : side) (division : bool) : T :=
    let key : bond := match direction with
      | SideL => (DirR, (i, j - 1)) | SideU => (DirD, (i - 1, j)) | SideD => (DirD, (i, j)) | SideR => (DirR, (i, j))
      end in
    match mfind key (environment n) with Some s => multiple t s direction division | None => t end.
  Definition try_all (n : network) (t : T) (i j : Z) (l : list side) (division : bool) : T := fold_left (fun t d => try_multiple n t i j d division) l t.

  (** 231-234 *)
  Definition update_single_site (n : network) (p : site) (u : U) : res network :=
    bind (get_site n (fst p) (snd p)) (fun t => set_site n (fst p) (snd p) (site_update t u)).
  (** 236-267 *)
  Definition update_horizontal_bond (n : network) (p : site) (updater : U) : res network :=
    let (i, j) := p in
    bind (get_site n i j) (fun left =>
    let left := try_all n left i j [SideL; SideU; SideD; SideR] false in
    bind (get_site n i (j + 1)) (fun right =>
    let right := try_all n right i (j + 1) [SideU; SideD; SideR] false in
    let '(u, s, v) := bond_update true left right updater in
    let n := set_environment n (DirR, (i, j)) s in
    let u := normalized (try_all n u i j [SideL; SideU; SideD] true) in
    bind (set_site n i j u) (fun n =>
    let v := normalized (try_all n v i (j + 1) [SideU; SideD; SideR] true) in
    set_site n i (j + 1) v))).
  (** 269-300 *)
  Definition update_vertical_bond (n : network) (p : site) (updater : U) : res network :=
    let (i, j) := p in
    bind (get_site n i j) (fun up =>
    let up := try_all n up i j [SideL; SideU; SideD; SideR] false in
    bind (get_site n (i + 1) j) (fun down =>
    let down := try_all n down (i + 1) j [SideL; SideD; SideR] false in
    let '(u, s, v) := bond_update false up down updater in
    let n := set_environment n (DirD, (i, j)) s in
    let u := normalized (try_all n u i j [SideL; SideU; SideR] true) in
    bind (set_site n i j u) (fun n =>
    let v := normalized (try_all n v (i + 1) j [SideL; SideD; SideR] true) in
    set_site n (i + 1) j v))).
  (** _single_term_simple_update, 199-229 *)
  Definition single_term (p : positions) (u : U) (n : network) : res network :=
    match p with
    | [a] => update_single_site n a u
    | [a; b] =>
        if (fst a =? fst b) && (snd a =? snd b + 1) then update_horizontal_bond n b u
        else if (fst a =? fst b) && (snd a + 1 =? snd b) then update_horizontal_bond n a u
        else if (snd a =? snd b) && (fst a =? fst b + 1) then update_vertical_bond n b u
        else if (snd a =? snd b) && (fst a + 1 =? fst b) then update_vertical_bond n a u
        else Throw (NotImplementedError "Unsupported simple update style")
    | _ => Throw (NotImplementedError "Unsupported simple update style")
    end.

  (** updater.at(positions), then the update *)
  Definition term_of (updater : list (positions * U)) (n : network) (p : positions) : res network :=
    bind (at_or_throw (mfind p updater)) (fun u => single_term p u n).

  (** _single_group_simple_update, 90-111, as the program of one process.  The value sent is a tensor or an environment.  [blank]: the
      environment that operator[] inserts when there is none.  MPI_Barrier is left out, which only allows more interleavings. *)
  Variable blank : S.
  Fixpoint numbered {A} (i : nat) (l : list A) : list (nat * A) := match l with [] => [] | a :: l => (i, a) :: numbered (Datatypes.S i) l end.
  Section Process.
    Context {A : Type}.
    Notation prog := (prog (T + S) A).
    Definition attempt {B} (r : res B) (k : B -> prog) : prog :=
      match r with Ok b => k b | Throw e => Stop (Throw e) | UB => Stop UB | OutOfFuel => Stop OutOfFuel end.
    (** 104-106 *)
    Fixpoint share_sites (size rank root : nat) (l : list site) (n : network) (k : network -> prog) : prog :=
      match l with
      | [] => k n
      | (x, y) :: l =>
          attempt (get_site n x y) (fun t =>
          broadcast size rank (Z.of_nat root) (inl t) (fun v =>
          match v with inl t => attempt (set_site n x y t) (fun n => share_sites size rank root l n k) | inr _ => Stop UB end))
      end.
    (** 107-109 *)
    Fixpoint share_environments (size rank root : nat) (l : list bond) (n : network) (k : network -> prog) : prog :=
      match l with
      | [] => k n
      | b :: l =>
          let s := match mfind b (environment n) with Some s => s | None => blank end in
          let n := set_environment n b s in
          broadcast size rank (Z.of_nat root) (inr s) (fun v =>
          match v with inr s => share_environments size rank root l (set_environment n b s) k | inl _ => Stop UB end)
      end.
    (** 101-110 *)
    Fixpoint share_terms (size rank : nat) (l : list (nat * positions)) (n : network) (k : network -> prog) : prog :=
      match l with
      | [] => k n
      | (i, p) :: l =>
          let root := (i mod size)%nat in
          share_sites size rank root p n (fun n =>
          attempt (related_environment p) (fun bs =>
          share_environments size rank root bs n (fun n => share_terms size rank l n k)))
      end.
    Definition my_terms (size rank : nat) (group : list positions) : list positions :=
      map snd (filter (fun ip => Nat.eqb (fst ip mod size) rank) (numbered 0 group)).
    Definition group_update (size rank : nat) (updater : list (positions * U)) (group : list positions) (n : network) (k : network -> prog) : prog :=
      attempt (foldM (term_of updater) (my_terms size rank group) n) (fun n => share_terms size rank (numbered 0 group) n k).
    Fixpoint groups_update (size rank : nat) (updater : list (positions * U)) (gs : list (list positions)) (n : network) (k : network -> prog) : prog :=
      match gs with
      | [] => k n
      | g :: gs => group_update size rank updater g n (fun n => groups_update size rank updater gs n k)
      end.
    (** the loop of update, 76-82: forward and backward through the groups *)
    Fixpoint steps_update (steps : nat) (size rank : nat) (updater : list (positions * U)) (gs : list (list positions)) (n : network) (k : network -> prog) : prog :=
      match steps with
      | O => k n
      | Datatypes.S steps =>
          groups_update size rank updater gs n (fun n =>
          groups_update size rank updater (rev gs) n (fun n => steps_update steps size rank updater gs n k))
      end.
  End Process.

  (** update, 60-82.  Operators are known by their address; exponential: exp(-delta_t * operator) for a number of sites, made once per
      address, for the number of sites of the first term that uses it *)
  Variable exponential : nat -> nat -> U.
  Definition make_updater (hamiltonians : list (positions * nat)) : list (positions * U) :=
    snd (fold_left (fun pu (ph : positions * nat) =>
      let (pool, updater) := (pu : list (nat * U) * list (positions * U)) in
      let (p, h) := ph in
      match mfind h pool with
      | Some u => (pool, mset p u updater)
      | None => let u := exponential (length p) h in (mset h u pool, mset p u updater)
      end) hamiltonians ([], [])).
  Definition simple_update (steps : nat) (size rank : nat) (hamiltonians : list (positions * nat)) (n : network) : prog (T + S) network :=
    let updater := make_updater hamiltonians in
    attempt (simple_update_sequence (map fst hamiltonians)) (fun gs => steps_update steps size rank updater gs n (fun n => Stop (Ok n))).
End SimpleUpdate.
Arguments network : clear implicits.
