(** Tensor::edge_operator: include/TAT/edge_operator.hpp (complete function), and the thin wrappers of
    include/TAT/edge_miscellaneous.hpp. *)
From Coq Require Import String List Bool Arith ZArith.
From Verif Require Import Base.Outcome Base.SMap Model.Symmetry Model.Edge Model.Core Model.Transpose.
Import ListNotations.
Local Open Scope string_scope.
Local Open Scope list_scope.

(** is_same_vector, edge_operator.hpp:30-43.  The loop starts at i = 1, so element 0 is never compared. *)
Definition is_same_vector (v1 v2 : list name) : bool :=
  Nat.eqb (length v1) (length v2)
  && forallb (fun xy => Nat.eqb (fst xy) (snd xy)) (combine (tl v1) (tl v2)).

Section EdgeOperator.
  Context {S R : Type} {SS : Sym S} {RR : Scalar R}.

  (** The value of unspecified things (indeterminate values, machine parameters). Theorems quantify over it. *)
  Record env : Type := mkEnv {
    env_junk : R;                   (* contents of freshly allocated blocks *)
    env_arrow : option bool;        (* an uninitialised Arrow: None = treat its use as undefined behaviour *)
    env_oob : bool;                 (* outcome of comparing leadings[-1], transpose.hpp:238 and 359 *)
    env_big : nat -> bool }.        (* total_size -> total_size * sizeof(ScalarType) >= l1_cache *)
  Variable E : env.

  (** Arguments of edge_operator, edge_operator.hpp:54-62 *)
  Record eo_args : Type := mkArgs {
    a_rename : list (name * name);
    a_split : list (name * list (name * edge S));
    a_reversed : list name;
    a_merge : list (name * list name);
    a_new_names : list name;
    a_apply_parity : bool;
    a_ex_split : list name; a_ex_rev : list name; a_ex_rev_merge : list name; a_ex_merge : list name;
    a_cut : list (name * list (S * nat)) }.

  Definition is_nil {A : Type} (l : list A) : bool := match l with [] => true | _ => false end.
  Definition mem_name (n : name) (l : list name) : bool := existsb (Nat.eqb n) l.

  (** lines 111-125 *)
  Definition rename_one (m : list (name * name)) (n : name) : name :=
    match mfind n m with Some n' => n' | None => n end.

  (** lines 143-166 for one edge *)
  Definition cut_map (cut : list (S * nat)) (m : list (S * nat)) : list (S * nat) :=
    flat_map (fun sd =>
      match mfind (fst sd) cut with
      | Some nd => if Nat.eqb nd 0 then [] else [(fst sd, if Nat.ltb nd (snd sd) then nd else snd sd)]
      | None => [sd]
      end) m.
  Definition cut_edge (cuts : list (name * list (S * nat))) (n : name) (e : edge S) : edge S :=
    match mfind n cuts with
    | Some cut => mkEdge (earrow e) (cut_map cut (emap e))
    | None => e
    end.

  (** ** Offsets of charge tuples inside a merged segment *)
  Definition offset_map : Type := list (list S * (S * nat)).

  (** loop state shared by the two operate lambdas: this_offset, bank / merged map, accumulated_symmetries,
      accumulated_dimensions, current_symmetries *)
  Definition off_state : Type := (offset_map * list (S * nat) * list S * list nat * list S)%type.

  (** lines 217-223 = 445-451 *)
  Definition off_accumulate (st : off_state) (cur : list (S * nat)) (mc : nat) : list S * list nat * list S :=
    let '(_, _, accs, accd, curs) := st in
    (accumulate_from sadd szero mc accs (map fst cur),
     accumulate_from Nat.mul 1 mc accd (map snd cur),
     firstn mc curs ++ skipn mc (map fst cur)).

  (** split lambda, lines 216-233 *)
  Definition split_operate (rank : nat) (st : off_state) (cur : list (S * nat)) (mc : nat) : off_state * nat :=
    let '(accs, accd, curs) := off_accumulate st cur mc in
    let '(this_offset, bank, _, _, _) := st in
    let target := last accs szero in
    let dim := last accd 0 in
    match mfind target bank with
    | Some off => ((mset curs (target, off) this_offset, mset target (off + dim) bank, accs, accd, curs), rank)
    | None => ((this_offset, bank, accs, accd, curs), rank)
    end.

  (** merge lambda, lines 444-456: merged_edge.map[target] inserts 0 when absent *)
  Definition merge_operate (rank : nat) (st : off_state) (cur : list (S * nat)) (mc : nat) : off_state * nat :=
    let '(accs, accd, curs) := off_accumulate st cur mc in
    let '(this_offset, merged, _, _, _) := st in
    let target := last accs szero in
    let dim := last accd 0 in
    let off := match mfind target merged with Some o => o | None => 0 end in
    ((mset curs (target, off) this_offset, mset target (off + dim) merged, accs, accd, curs), rank).

  Definition off_init (rank : nat) (bank : list (S * nat)) : off_state :=
    ([], bank, repeat szero rank, repeat 0 rank, repeat szero rank).

  (** lines 200-233: the offset table of one split edge.  [before]: map of the edge before splitting *)
  Definition split_offsets (before : list (S * nat)) (maps : list (list (S * nat))) : res offset_map :=
    let rank := length maps in
    bind (loop_edge maps
            (fun st : off_state => let '(_, b, x, y, z) := st in ([([], (szero, 0))], b, x, y, z))
            (fun st => st)
            (split_operate rank)
            (off_init rank (map (fun sd => (fst sd, 0)) before)))
         (fun st => let '(o, _, _, _, _) := st in Ok o).

  (** lines 430-456: offset table and merged map of one merge group of size other than one *)
  Definition merge_offsets (maps : list (list (S * nat))) : res (offset_map * list (S * nat)) :=
    let rank := length maps in
    bind (loop_edge maps
            (fun st : off_state => let '(_, _, x, y, z) := st in ([([], (szero, 0))], [(szero, 1)], x, y, z))
            (fun st => st)
            (merge_operate rank)
            (off_init rank []))
         (fun st => let '(o, m, _, _, _) := st in Ok (o, m)).

  (** ** Splitting, lines 173-270 *)
  (** result per original position: names, edges, offset table *)
  Definition split_one (split : list (name * list (name * edge S))) (ne : name * edge S)
    : res (list (name * edge S) * offset_map) :=
    let '(n, e) := ne in
    match mfind n split with
    | Some parts =>
        bind (split_offsets (emap e) (map (fun p => emap (snd p)) parts)) (fun off =>
        Ok (map (fun p => (fst p, mkEdge (earrow e) (emap (snd p)))) parts, off))
    | None => Ok ([(n, e)], [])
    end.

  (** position flags: position_before_split repeated for each resulting edge (lines 183-250) *)
  Fixpoint flags_from {A : Type} (i : nat) (groups : list (list A)) : list nat :=
    match groups with
    | [] => []
    | g :: gs => map (fun _ => i) g ++ flags_from (1 + i) gs
    end.

  (** ** Merging, lines 305-341 *)
  Definition merge_groups (merge : list (name * list name)) (new_names : list name) : list (list name) :=
    map (fun n => match mfind n merge with Some l => l | None => [n] end) new_names.

  (** arrow fixing of one merge group, lines 402-423: edges with fixed arrows, reversal flags, the group's arrow *)
  Fixpoint fix_arrows (arrow : option bool) (es : list (edge S)) : list (edge S) * list bool * option bool :=
    match es with
    | [] => ([], [], arrow)
    | e :: es' =>
        if arrow_valid e then
          match arrow with
          | Some a =>
              let '(es'', fl, ar) := fix_arrows arrow es' in
              if Bool.eqb a (earrow e) then (e :: es'', false :: fl, ar)
              else (mkEdge (negb (earrow e)) (emap e) :: es'', true :: fl, ar)
          | None =>
              let '(es'', fl, ar) := fix_arrows (Some (earrow e)) es' in (e :: es'', false :: fl, ar)
          end
        else let '(es'', fl, ar) := fix_arrows arrow es' in (e :: es'', false :: fl, ar)
    end.

  (** one merge group, lines 396-470: fixed edges, reversal flags, merged edge, offset table *)
  Definition merge_one (es : list (edge S)) : res (list (edge S) * list bool * edge S * offset_map) :=
    let '(es', fl, ar) := if is_fermi then fix_arrows None es else (es, map (fun _ => false) es, None) in
    match es' with
    | [e] => Ok (es', fl, e, [])
    | _ =>
        bind (merge_offsets (map emap es')) (fun om =>
        bind (if is_fermi then get_or_ub (match ar with Some a => Some a | None => env_arrow E end) else Ok false) (fun arrow =>
        Ok (es', fl, mkEdge arrow (snd om), fst om)))
    end.

  (** cut the list of edges after transposition into the merge groups *)
  Fixpoint group_by {A B : Type} (groups : list (list B)) (l : list A) : list (list A) :=
    match groups with
    | [] => []
    | g :: gs => firstn (length g) l :: group_by gs (skipn (length g) l)
    end.

  (** ** From transposition-level charges to source / destination charges and offsets, lines 526-561, 569-603.
      [None]: not found in a table (success = false). *)
  Fixpoint group_lookup (i : nat) (offs : list offset_map) (flag : list nat) (syms : list S) : option (list (S * nat)) :=
    match offs with
    | [] => Some []
    | off :: offs' =>
        let '(g, syms', flag') := take_group i syms flag in
        let here := match g with
                    | [s] => Some (s, 0)
                    | _ => mfind g off
                    end in
        match here with
        | None => None
        | Some so => match group_lookup (1 + i) offs' flag' syms' with
                     | None => None
                     | Some l => Some (so :: l)
                     end
        end
    end.

  Definition sd_map : Type := list (list S * (list S * list nat)).

  Definition lookup_table (offs : list offset_map) (flag : list nat) (keys : list (list S * nat)) : sd_map :=
    fold_left (fun m ks =>
      match group_lookup 0 offs flag (fst ks) with
      | Some l => mset (fst ks) (map fst l, map snd l) m
      | None => m
      end) keys [].

  Definition identity_table (rank : nat) (blocks : list (list S * list R)) : sd_map :=
    fold_left (fun m kb => mset (fst kb) (fst kb, repeat 0 rank) m) blocks [].

  (** ** Strides, lines 709-744 *)
  Fixpoint leadings (dims : list nat) : list nat :=
    match dims with
    | [] => []
    | [_] => [1]
    | _ :: ((d2 :: _) as tl) => let l := leadings tl in (hd 0 l * d2) :: l
    end.
  Fixpoint group_leadings (flags dims outer : list nat) : list nat :=
    match flags, dims with
    | f :: fs, _ :: ds =>
        let rest := group_leadings fs ds outer in
        match fs, ds with
        | f2 :: _, d2 :: _ => if Nat.eqb f f2 then (hd 0 rest * d2) :: rest else nth f outer 0 :: rest
        | _, _ => nth f outer 0 :: rest
        end
    | _, _ => []
    end.

  (** total offset, lines 697-707 *)
  Definition total_offset (dims offsets : list nat) : nat :=
    fold_left (fun acc x => acc * fst x + snd x) (combine dims offsets) 0.

  (** edges[i].map.at(symmetries[i]) for all i *)
  Fixpoint dims_at (edges : list (edge S)) (syms : list S) : res (list nat) :=
    match edges, syms with
    | e :: es, s :: ss =>
        bind (at_or_throw (mfind s (emap e))) (fun d => bind (dims_at es ss) (fun ds => Ok (d :: ds)))
    | _, _ => Ok []
    end.

  (** destination[plan_s2d[i]] = source[i], i.e. destination[j] = source[plan_d2s[j]] when the plans are inverse;
      written for the first form: the value at j is the last source index i with plan_s2d[i] = j *)
  Definition scatter {A : Type} (default : A) (plan_s2d : list nat) (src : list A) : list A :=
    map (fun j => fold_left (fun acc pi => if Nat.eqb (fst pi) j then snd pi else acc)
                            (combine plan_s2d src) default)
        (seq 0 (length src)).

  (** plan_source_to_destination (lines 347, 360), initially all 0 *)
  Definition invert_plan (plan_d2s : list nat) : list nat :=
    map (fun i => fold_left (fun acc dj => if Nat.eqb (snd dj) i then fst dj else acc)
                            (combine (seq 0 (length plan_d2s)) plan_d2s) 0)
        (seq 0 (length plan_d2s)).

  (** marks, lines 611-649 *)
  Definition mark (apply_parity : bool) (exclude names : list name) : list bool :=
    map (fun n => if apply_parity then negb (mem_name n exclude) else mem_name n exclude) names.

  (** data describing the copy loop, computed by the first half of edge_operator *)
  Record eo_plan : Type := mkPlan {
    p_edge_before_transpose : list (edge S);
    p_edge_src : list (edge S);             (* core->edges *)
    p_edge_dst : list (edge S);             (* edge_after_merge *)
    p_split_flag : list nat; p_merge_flag : list nat;
    p_s2d : list nat; p_d2s : list nat;
    p_to_src : sd_map; p_to_dst : sd_map;
    p_rev_before : list bool; p_rev_before_mark : list bool; p_split_mark : list bool;
    p_rev_after : list bool; p_rev_after_mark : list bool; p_merge_mark : list bool }.

  (** parity of one block, lines 746-755 *)
  Definition block_parity (p : eo_plan) (sym_before sym_after : list S) : bool :=
    if is_fermi then
      xorb (get_transpose_parity sym_before (p_s2d p))
      (xorb (get_reverse_parity sym_before (p_rev_before p) (p_rev_before_mark p))
      (xorb (get_split_merge_parity sym_before (p_split_flag p) (p_split_mark p))
      (xorb (get_reverse_parity sym_after (p_rev_after p) (p_rev_after_mark p))
            (get_split_merge_parity sym_after (p_merge_flag p) (p_merge_mark p)))))
    else false.

  (** body of the main copy loop, lines 658-769 *)
  Definition copy_block (p : eo_plan) (src_blocks : list (list S * list R))
      (dst_blocks : list (list S * list R)) (entry : list S * (list S * list nat)) : res (list (list S * list R)) :=
    let '(sym_before, (src_syms, src_offs)) := entry in
    bind (dims_at (p_edge_before_transpose p) sym_before) (fun dims_before =>
    let rank := length dims_before in
    let dims_after := scatter 0 (p_s2d p) dims_before in
    let sym_after := scatter szero (p_s2d p) sym_before in
    let total_size := fold_left Nat.mul dims_before 1 in
    bind (at_or_throw (mfind sym_after (p_to_dst p))) (fun dst_so =>
    let '(dst_syms, dst_offs) := dst_so in
    bind (at_or_throw (mfind src_syms src_blocks)) (fun src_block =>
    bind (at_or_throw (mfind dst_syms dst_blocks)) (fun dst_block =>
    bind (dims_at (p_edge_src p) src_syms) (fun src_dims =>
    bind (dims_at (p_edge_dst p) dst_syms) (fun dst_dims =>
    let sb := total_offset src_dims src_offs in
    let db := total_offset dst_dims dst_offs in
    let l_before := group_leadings (p_split_flag p) dims_before (leadings src_dims) in
    let l_after := group_leadings (p_merge_flag p) dims_after (leadings dst_dims) in
    bind (do_transpose (env_oob E) (env_big E total_size) src_block sb dst_block db
            (p_s2d p) (p_d2s p) dims_before dims_after l_before l_after rank total_size
            (block_parity p sym_before sym_after)) (fun dst_block' =>
    Ok (mset dst_syms dst_block' dst_blocks)))))))).

  (** edge_operator, edge_operator.hpp:45-772 *)
  Definition edge_operator (t : tensor S R) (a : eo_args) : res (tensor S R) :=
    let names := t_names t in
    let name_before_split := map (rename_one (a_rename a)) names in
    if is_same_vector name_before_split (a_new_names a) && is_nil (a_split a) && is_nil (a_reversed a)
       && is_nil (a_merge a) && is_nil (a_cut a)
    then Ok (mkTensor (a_new_names a) (t_core t))      (* lines 129-138: share the core, names unchecked *)
    else
    (* cut: by the names before renaming (line 145) *)
    let edge_before_split := map (fun ne => cut_edge (a_cut a) (fst ne) (snd ne)) (combine names (t_edges t)) in
    (* split *)
    bind (mapM (split_one (a_split a)) (combine name_before_split edge_before_split)) (fun split_res =>
    let split_groups := map fst split_res in
    let name_after_split := map fst (concat split_groups) in
    let edge_after_split := map snd (concat split_groups) in
    let split_flag := flags_from 0 split_groups in
    let split_off := map snd split_res in
    let rank := length name_after_split in
    (* reverse, lines 277-296 *)
    let rev_before := map (fun n => is_fermi && mem_name n (a_reversed a)) name_after_split in
    let edge_before_transpose :=
      map (fun re => if fst re : bool then mkEdge (negb (earrow (snd re))) (emap (snd re)) else snd re)
          (combine rev_before edge_after_split) in
    (* names before merge, lines 309-341 *)
    let groups := merge_groups (a_merge a) (a_new_names a) in
    let name_before_merge := concat groups in
    let merge_flag := flags_from 0 groups in
    if negb (Nat.eqb rank (length name_before_merge)) then tat_error "Tensor to transpose with Different Rank"
    else
    (* plan, lines 343-362 *)
    let index := construct_name_to_index name_after_split in
    bind (mapM (fun n => match mfind n index with
                         | Some i => Ok i
                         | None => tat_error "Tensor to transpose with incompatible name list"
                         end) name_before_merge) (fun plan_d2s =>
    let plan_s2d := invert_plan plan_d2s in
    let edge_after_transpose :=
      map (fun i => nth i edge_before_transpose (mkEdge false [])) plan_d2s in
    (* merge, lines 371-491 *)
    bind (if is_nil (a_merge a)
          then Ok (map (fun e => ([e], [false], e, [])) edge_after_transpose)
          else mapM merge_one (group_by groups edge_after_transpose)) (fun merge_res =>
    let edge_before_merge := concat (map (fun x => fst (fst (fst x))) merge_res) in
    let rev_after := concat (map (fun x => snd (fst (fst x))) merge_res) in
    let result_edge := map (fun x => snd (fst x)) merge_res in
    let merge_off := map snd merge_res in
    bind (make_core (env_junk E) result_edge false) (fun rcore =>
    bind (check_valid_name (a_new_names a) (length (c_edges rcore))) (fun _ =>
    (* data maps, lines 522-608 *)
    bind (if negb (is_nil (a_split a)) || (is_fermi && negb (is_nil (a_reversed a)))
          then bind (initialize_block_symmetries (map emap edge_after_split)) (fun keys =>
               Ok (lookup_table split_off split_flag keys))
          else Ok (identity_table (length names) (t_blocks t))) (fun to_src =>
    bind (if negb (is_nil (a_merge a))
          then bind (initialize_block_symmetries (map emap edge_before_merge)) (fun keys =>
               Ok (lookup_table merge_off merge_flag keys))
          else Ok (identity_table (length (a_new_names a)) (c_blocks rcore))) (fun to_dst =>
    let plan := mkPlan edge_before_transpose (t_edges t) (c_edges rcore) split_flag merge_flag
                  plan_s2d plan_d2s to_src to_dst
                  rev_before (mark (a_apply_parity a) (a_ex_rev a) name_after_split)
                  (mark (a_apply_parity a) (a_ex_split a) name_before_split)
                  rev_after (mark (a_apply_parity a) (a_ex_rev_merge a) name_before_merge)
                  (mark (a_apply_parity a) (a_ex_merge a) (a_new_names a)) in
    (* lines 651-654 *)
    let blocks0 := if is_nosym then c_blocks rcore
                   else map (fun kb => (fst kb, map (fun _ => rzero) (snd kb))) (c_blocks rcore) in
    bind (foldM (copy_block plan (t_blocks t)) to_src blocks0) (fun blocks =>
    Ok (mkTensor (a_new_names a) (mkCore (c_edges rcore) blocks)))))))))).

  Definition no_args (new_names : list name) : eo_args :=
    mkArgs [] [] [] [] new_names false [] [] [] [] [].

  (** ** edge_miscellaneous.hpp *)
  (** edge_rename, edge_miscellaneous.hpp:28-48 (names replaced, core shared) *)
  Definition edge_rename (t : tensor S R) (dictionary : list (name * name)) : tensor S R :=
    mkTensor (map (rename_one dictionary) (t_names t)) (t_core t).

  (** transpose, edge_miscellaneous.hpp:50-55 *)
  Definition transpose (t : tensor S R) (target_names : list name) : res (tensor S R) :=
    edge_operator t (no_args target_names).

  (** reverse_edge, edge_miscellaneous.hpp:57-64 *)
  Definition reverse_edge (t : tensor S R) (reversed : list name) (apply_parity : bool) (exclude : list name) : res (tensor S R) :=
    edge_operator t (mkArgs [] [] reversed [] (t_names t) apply_parity [] exclude [] [] []).

  (** merge_edge, edge_miscellaneous.hpp:64-122.  Lines 73-85: names that do not exist are dropped from the groups
      (name_to_index has exactly the names as keys). *)
  Definition drop_absent (names : list name) (merge : list (name * list name)) : list (name * list name) :=
    map (fun nl => (fst nl, filter (fun n => mem_name n names) (snd nl))) merge.
  (** lines 93-105: what one name adds to target_name *)
  Definition target_of (merge : list (name * list name)) (n : name) : list name :=
    match find (fun nl => mem_name n (snd nl)) merge with
    | Some nl => if Nat.eqb n (last (snd nl) 0) then [fst nl] else []
    | None => [n]
    end.
  (** lines 86-113: names are walked from the last to the first, empty groups are appended, the list is reversed *)
  Definition merge_target (merge : list (name * list name)) (names : list name) : list name :=
    rev (flat_map (target_of merge) (rev names) ++ map fst (filter (fun nl => is_nil (snd nl)) merge)).
  Definition merge_edge (t : tensor S R) (merge : list (name * list name)) (apply_parity : bool)
      (exclude_merge exclude_reverse : list name) : res (tensor S R) :=
    let merge' := drop_absent (t_names t) merge in
    edge_operator t (mkArgs [] [] [] merge' (merge_target merge' (t_names t)) apply_parity [] [] exclude_reverse exclude_merge []).

  (** split_edge, edge_miscellaneous.hpp:124-153.  Lines 132-138: entries whose name does not exist are erased;
      lines 140-150: every split name is replaced by the names of its parts *)
  Definition split_edge (t : tensor S R) (split : list (name * list (name * edge S))) (apply_parity : bool)
      (exclude_split : list name) : res (tensor S R) :=
    let split' := filter (fun np => mem_name (fst np) (t_names t)) split in
    let target := flat_map (fun n => match mfind n split' with Some ps => map fst ps | None => [n] end) (t_names t) in
    edge_operator t (mkArgs [] split' [] [] target apply_parity exclude_split [] [] [] []).
End EdgeOperator.
