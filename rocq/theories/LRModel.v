(** Model of lapex-parser/src/lr_parser (bidimap.rs, item.rs, mod.rs): LR(0), LR(1) and LALR table
    generation; and of the parser emitted by lapex-rust-codegen/src/lr_parser.  Definitions only. *)
From Coq Require Import String List Arith NArith Bool.
From Verif Require Import Base InputModel GrammarModel LLModel.
Import ListNotations.
Local Open Scope nat_scope.
Local Open Scope list_scope.

(** ** bidimap.rs *)

(** bidimap.rs 5-8, [BidiMap]; the [Rc] wrappers are dropped. *)
Record bidi (A B : Type) : Type := mkBidi { bd_ab : list (A * B); bd_ba : list (B * A) }.
Arguments mkBidi {A B}.
Arguments bd_ab {A B}.
Arguments bd_ba {A B}.

(** bidimap.rs 17-22, [new]. *)
Definition bidi_new {A B} : bidi A B := mkBidi [] [].

(** bidimap.rs 24-29, [insert]. *)
Definition bidi_insert {A B} `{Cmp A} `{Cmp B} (a : A) (b : B) (m : bidi A B) : bidi A B :=
  mkBidi (map_insert a b (bd_ab m)) (map_insert b a (bd_ba m)).

(** bidimap.rs 31-37. *)
Definition bidi_get_a_to_b {A B} `{Cmp A} (a : A) (m : bidi A B) : option B := map_get a (bd_ab m).
(** bidimap.rs 35-37, [get_b_to_a]. *)
Definition bidi_get_b_to_a {A B} `{Cmp B} (b : B) (m : bidi A B) : option A := map_get b (bd_ba m).

(** bidimap.rs 39-51, [remove_by_b].  The two [try_unwrap]s succeed if [a] was last inserted together with
    [b]; otherwise the second [Rc] is still a key of [b_a_map] and the mixed case is [unreachable!()]. *)
Definition bidi_remove_by_b {E A B} `{Cmp A} `{Cmp B} (b : B) (m : bidi A B) : res E (option (A * B) * bidi A B) :=
  match map_get b (bd_ba m) with
  | None => Ok (None, m)
  | Some a =>
    let ba := map_remove b (bd_ba m) in
    match map_get a (bd_ab m) with
    | None => Ok (None, mkBidi (bd_ab m) ba)
    | Some b' => if eqc b b' then Ok (Some (a, b'), mkBidi (map_remove a (bd_ab m)) ba) else Panic
    end
  end.

(** bidimap.rs 53-55, [iter]. *)
Definition bidi_iter {A B} (m : bidi A B) : list (A * B) := bd_ab m.

(** ** item.rs *)

(** item.rs 60-65, [Item], and 11-58, [RuleRef]: the rule is a pointer, here [None] for the entry rule and [Some k] for the k-th
    rule of the grammar (so items are compared by position, as by address); the lookahead has N symbols.
    The order of addresses puts rules of the vector in order; the entry rule is put before them, which has
    no observable effect (C50: LRHashModel has any order of addresses). *)
Record item : Type := mkItem { it_rule : option nat; it_dot : nat; it_la : list symbol }.

(** item.rs 42-58 and 60-65: the derived order of [Item]; a rule is ordered by its address, that is by its position. *)
Definition item_key (i : item) : option nat * (nat * list symbol) := (it_rule i, (it_dot i, it_la i)).
#[export] Instance CmpItem : Cmp item.
Proof.
  refine {| cmp := fun i j => cmp (item_key i) (item_key j) |}.
  - intros [a b c] [a' b' c']. rewrite cmp_eq. unfold item_key. simpl. split; [intros [= -> -> ->]; reflexivity|intros [= -> -> ->]; reflexivity].
  - intros a b. apply cmp_opp.
  - intros a b c. apply cmp_trans.
Defined.

(** item.rs 21-27 and 177-179: following the pointer. A dangling position has no counterpart in the code; its right-hand side is empty. *)
Definition item_rule (g : grammar) (r : option nat) : option rule :=
  match r with None => Some (g_entry_rule g) | Some k => nth_error (g_rules g) k end.
(** item.rs 148-153: [self.rule.rhs()]. *)
Definition rhs_of (g : grammar) (r : option nat) : list symbol :=
  match item_rule g r with Some r => r_rhs r | None => [] end.
(** mod.rs 191: [rule().lhs()]. *)
Definition lhs_of (g : grammar) (r : option nat) : option N :=
  match item_rule g r with Some r => r_lhs r | None => None end.

(** mod.rs 448-455: LR generation returns no errors of its own. *)
Definition lres := res Empty_set.

(** [DotIdx = u8]: [checked_add(offset).unwrap()]. *)
Definition add_u8 (a b : nat) : lres nat := if a + b <? 256 then Ok (a + b) else Panic.

(** item.rs 130-136, [to_lr0]. *)
Definition to_lr0 (i : item) : item := mkItem (it_rule i) (it_dot i) [].

(** item.rs 148-153, [symbol_after_dot_offset]. *)
Definition symbol_after_dot_offset (g : grammar) (i : item) (offset : nat) : lres (option symbol) :=
  do d <- add_u8 (it_dot i) offset;
  Ok (nth_error (rhs_of g (it_rule i)) d).

(** item.rs 155-157, [symbol_after_dot] (adding 0 cannot overflow). *)
Definition symbol_after_dot (g : grammar) (i : item) : option symbol := nth_error (rhs_of g (it_rule i)) (it_dot i).

(** item.rs 159-166, [symbols_following_symbol_after_dot]. *)
Definition symbols_following (g : grammar) (i : item) : lres (list symbol) :=
  do d <- add_u8 (it_dot i) 1;
  Ok (skipn d (rhs_of g (it_rule i))).

(** item.rs 168-175, [advance_dot] (the Boolean result is not used by the callers). *)
Definition advance_dot (g : grammar) (i : item) : lres item :=
  if it_dot i <? length (rhs_of g (it_rule i))
  then do d <- add_u8 (it_dot i) 1; Ok (mkItem (it_rule i) d (it_la i))
  else Ok i.

(** ** mod.rs: item sets *)

(** mod.rs 27-37, [get_lr0_core], [get_hash_lr0_core]. *)
Definition lr0_core (set : list item) : list item := set_of_list (map to_lr0 set).

(** mod.rs 236-248, [build_rules_map] and its lookup: positions of the rules of a symbol, in order. *)
Definition lhs_is (s : symbol) (r : rule) : bool :=
  match r_lhs r with Some i => eqc s (NonTerminal i) | None => false end.
(** mod.rs 236-248 and 53: the entry of [rules_map]. *)
Definition rules_for (g : grammar) (s : symbol) : list nat :=
  map fst (filter (fun e => lhs_is s (snd e)) (enumerate (g_rules g))).

(** mod.rs 59-62: skipping [Epsilon]s at the front of a fresh item; [rest] is what follows the dot. *)
Fixpoint skip_epsilons (rest : list symbol) (d : nat) : lres nat :=
  match rest with
  | Epsilon :: rest => do d <- add_u8 d 1; skip_epsilons rest d
  | _ => Ok d
  end.
(** mod.rs 59-62: [Item::new] and the loop behind it. *)
Definition new_item (g : grammar) (k : nat) (la : list symbol) : lres item :=
  do d <- skip_epsilons (rhs_of g (Some k)) 0;
  Ok (mkItem (Some k) d la).

(** mod.rs 76-106, [determine_lookaheads_to_expand] ([item] and [top] are the same item). *)
Definition determine_lookaheads (g : grammar) (n : nat) (fs : symbol_sets) (top : item) : lres (list (list symbol)) :=
  if 1 <? n then Panic else
  do follow <- symbol_after_dot_offset g top 1;
  if 0 <? n then
    match follow with
    | Some (Terminal t) => Ok [[Terminal t]]
    | Some (NonTerminal _) =>
      do rest <- symbols_following g top;
      match it_la top with
      | [] => Panic
      | x :: _ =>
        do terminals <- first_of_seq (rest ++ [x]) fs;
        Ok (map (fun s => [s]) terminals)
      end
    | Some _ => Panic
    | None => Ok [it_la top]
    end
  else Ok [it_la top].

(** mod.rs 58-67: one lookahead for one rule; the state is the item set and the stack of items to expand. *)
Definition expand_lookahead (g : grammar) (k : nat) (st : list item * list item) (la : list symbol)
  : lres (list item * list item) :=
  let '(set, to_expand) := st in
  do it <- new_item g k la;
  if set_mem it set then Ok st else Ok (set_insert it set, it :: to_expand).

(** mod.rs 54-68: one rule. *)
Definition expand_rule (g : grammar) (n : nat) (fs : symbol_sets) (top : item) (st : list item * list item) (k : nat)
  : lres (list item * list item) :=
  do las <- determine_lookaheads g n fs top;
  foldM (expand_lookahead g k) las st.

(** mod.rs 51-71: one item taken from the stack. *)
Definition expand_top (g : grammar) (n : nat) (fs : symbol_sets) (top : item) (st : list item * list item)
  : lres (list item * list item) :=
  match symbol_after_dot g top with
  | Some s => foldM (expand_rule g n fs top) (rules_for g s) st
  | None => Ok st
  end.

(** mod.rs 50-72: the loop. *)
Fixpoint expand_loop (fuel : nat) (g : grammar) (n : nat) (fs : symbol_sets) (set to_expand : list item) : lres (list item) :=
  match fuel with
  | O => OutOfFuel
  | S fuel =>
    match to_expand with
    | [] => Ok set
    | top :: to_expand =>
      do (set, to_expand) <- expand_top g n fs top (set, to_expand);
      expand_loop fuel g n fs set to_expand
    end
  end.

(** mod.rs 39-74, [expand_item]; the cache only avoids recomputation and is dropped (LRHashModel has it, C50). *)
Definition expand_item (fuel : nat) (g : grammar) (n : nat) (fs : symbol_sets) (it : item) : lres (list item) :=
  expand_loop fuel g n fs [it] [it].

(** ** mod.rs: the state graph *)

(** mod.rs 108-113, [ParserGraph]; nodes are 0 .. [lg_nodes]-1; edges most recently added first (the order of
    [edges_directed]). *)
Record lr_graph : Type := mkGraph {
  lg_map : bidi (list item) nat;
  lg_cores : list (list item * nat);
  lg_nodes : nat;
  lg_edges : list (nat * symbol * nat)
}.

(** mod.rs 116-123, [ParserGraph::new]. *)
Definition empty_graph : lr_graph := mkGraph bidi_new [] 0 [].

(** mod.rs 125-131, [add_state]. *)
Definition add_state (pg : lr_graph) (set : list item) : nat * lr_graph :=
  let node := lg_nodes pg in
  (node, mkGraph (bidi_insert set node (lg_map pg)) (map_insert (lr0_core set) node (lg_cores pg)) (S node) (lg_edges pg)).

(** mod.rs 137-146, [update_item_set], with the closure of 255-264 ([merge_into_state]) applied to the set. *)
Definition insert_items (new set : list item) : list item * bool :=
  fold_left (fun st it => (set_insert it (fst st), snd st || negb (set_mem it (fst st)))) new (set, false).
(** mod.rs 250-265, [merge_into_state], with 137-146. *)
Definition merge_into_state (pg : lr_graph) (state : nat) (new : list item) : lres (bool * lr_graph) :=
  do (removed, m) <- bidi_remove_by_b state (lg_map pg);
  match removed with
  | None => Panic
  | Some (set, state) =>
    let '(set, reprocess) := insert_items new set in
    Ok (reprocess, mkGraph (bidi_insert set state m) (map_insert (lr0_core set) state (lg_cores pg)) (lg_nodes pg) (lg_edges pg))
  end.

(** mod.rs 156-163, [add_transition]. *)
Definition add_transition (pg : lr_graph) (start target : nat) (s : symbol) : lr_graph :=
  mkGraph (lg_map pg) (lg_cores pg) (lg_nodes pg) ((start, s, target) :: lg_edges pg).

(** mod.rs 195-197 and 288-290: [entry(..).or_insert(..)]. *)
Definition get_or_empty {K V} `{Cmp K} (k : K) (m : list (K * list V)) : list V :=
  match map_get k m with Some l => l | None => [] end.

(** mod.rs 188-201: the transition of one item.  Hash sets are kept sorted. *)
Definition item_transition (fuel : nat) (g : grammar) (n : nat) (fs : symbol_sets) (tm : list (symbol * list item)) (it : item)
  : lres (list (symbol * list item)) :=
  match symbol_after_dot g it, lhs_of g (it_rule it) with
  | Some s, Some _ =>
    do target <- advance_dot g it;
    do set <- expand_item fuel g n fs target;
    Ok (map_insert s (set_union (get_or_empty s tm) set) tm)
  | _, _ => Ok tm
  end.

(** mod.rs 202-231: the state for one transition. *)
Definition add_target (lalr : bool) (start : nat) (st : lr_graph * list nat) (e : symbol * list item) : lres (lr_graph * list nat) :=
  let '(pg, todo) := st in
  let '(edge, set) := e in
  if lalr then
    match map_get (lr0_core set) (lg_cores pg) with
    | Some state =>
      do (merged, pg) <- merge_into_state pg state set;
      Ok (add_transition pg start state edge, if merged then state :: todo else todo)
    | None =>
      let '(state, pg) := add_state pg set in
      Ok (add_transition pg start state edge, state :: todo)
    end
  else
    match bidi_get_a_to_b set (lg_map pg) with
    | Some state => Ok (add_transition pg start state edge, todo)
    | None =>
      let '(state, pg) := add_state pg set in
      Ok (add_transition pg start state edge, state :: todo)
    end.

(** mod.rs 184-232: the loop over unprocessed states; [efuel] is the fuel of [expand_item]. *)
Fixpoint graph_loop (fuel efuel : nat) (g : grammar) (n : nat) (lalr : bool) (fs : symbol_sets) (pg : lr_graph) (todo : list nat)
  : lres lr_graph :=
  match fuel with
  | O => OutOfFuel
  | S fuel =>
    match todo with
    | [] => Ok pg
    | start :: todo =>
      match bidi_get_b_to_a start (lg_map pg) with
      | None => Panic
      | Some set =>
        do tm <- foldM (item_transition efuel g n fs) set [];
        do (pg, todo) <- foldM (add_target lalr start) tm (pg, todo);
        graph_loop fuel efuel g n lalr fs pg todo
      end
    end
  end.

(** mod.rs 166-234, [generate_parser_graph]; the entry state is node 0. *)
Definition entry_item (n : nat) : item := mkItem None 0 (repeat End n).
(** mod.rs 166-234, [generate_parser_graph]. *)
Definition generate_parser_graph (fuel : nat) (g : grammar) (n : nat) (lalr : bool) (fs : symbol_sets) : lres (nat * lr_graph) :=
  do set <- expand_item fuel g n fs (entry_item n);
  let '(entry, pg) := add_state empty_graph set in
  do pg <- graph_loop fuel fuel g n lalr fs pg [entry];
  Ok (entry, pg).

(** ** mod.rs: conflicts *)

(** mod.rs 267-278, [Conflict]. *)
Inductive conflict : Type :=
| ShiftReduce (state : nat) (item_to_reduce : item) (shift_symbol : symbol)
| ReduceReduce (state : nat) (items : list item).

(** mod.rs 267-278: the derived order of [Conflict]. *)
Definition conflict_key (c : conflict) : nat * (nat * (list item * list symbol)) :=
  match c with
  | ShiftReduce s i x => (0, (s, ([i], [x])))
  | ReduceReduce s l => (1, (s, (l, [])))
  end.
#[export] Instance CmpConflict : Cmp conflict.
Proof.
  refine {| cmp := fun i j => cmp (conflict_key i) (conflict_key j) |}.
  - intros a b. rewrite cmp_eq. split; [|congruence]. destruct a, b; simpl; congruence.
  - intros a b. apply cmp_opp.
  - intros a b c. apply cmp_trans.
Defined.

(** mod.rs 285-293: reducing items of a state by lookahead. *)
Definition add_reducing (g : grammar) (m : list (list symbol * list item)) (it : item) : list (list symbol * list item) :=
  match symbol_after_dot g it with
  | None => map_insert (it_la it) (get_or_empty (it_la it) m ++ [it]) m
  | Some _ => m
  end.
(** mod.rs 285-293: the map [reducing_items]. *)
Definition reducing_items (g : grammar) (set : list item) : list (list symbol * list item) := fold_left (add_reducing g) set [].

(** mod.rs 301 and 508-512, [edges_directed(state, Outgoing)]. *)
Definition out_edges (pg : lr_graph) (state : nat) : list (symbol * nat) :=
  map (fun e => (snd (fst e), snd e)) (filter (fun e => fst (fst e) =? state) (lg_edges pg)).

(** mod.rs 294-330: conflicts of one state and lookahead. *)
Definition lookahead_conflicts (pg : lr_graph) (n state : nat) (cs : list conflict) (e : list symbol * list item) : lres (list conflict) :=
  let '(la, items) := e in
  match items with
  | [] => Ok cs
  | [it] =>
    foldM (fun cs edge =>
      if 1 <? n then Panic
      else if n =? 1 then
        match la with
        | [] => Panic
        | x :: _ => Ok (if eqc x (fst edge) then set_insert (ShiftReduce state (to_lr0 it) (fst edge)) cs else cs)
        end
      else Ok (set_insert (ShiftReduce state (to_lr0 it) (fst edge)) cs)) (out_edges pg state) cs
  | _ => Ok (set_insert (ReduceReduce state (map to_lr0 items)) cs)
  end.

(** mod.rs 280-333, [find_conflicts]. *)
Definition state_conflicts (g : grammar) (pg : lr_graph) (n : nat) (cs : list conflict) (e : list item * nat) : lres (list conflict) :=
  foldM (lookahead_conflicts pg n (snd e)) (reducing_items g (fst e)) cs.
(** mod.rs 280-333, [find_conflicts]. *)
Definition find_conflicts (g : grammar) (pg : lr_graph) (n : nat) : lres (list conflict) :=
  foldM (state_conflicts g pg n) (bidi_iter (lg_map pg)) [].

(** ** mod.rs: the action/goto table *)

(** mod.rs 335-341, [TableEntry]; the rule is a pointer as in [it_rule]. *)
Inductive table_entry : Type :=
| Shift (target : nat)
| Reduce (rule : option nat)
| Error
| Accept.

(** mod.rs 354-359, [ActionGotoTable]. *)
Record lr_table : Type := mkTable {
  tb_entries : list ((nat * symbol) * list table_entry);
  tb_states : nat;
  tb_entry : nat
}.

(** mod.rs 370-372, [get_entry]. *)
Definition get_entry (tb : lr_table) (state : nat) (s : symbol) : option (list table_entry) := map_get (state, s) (tb_entries tb).

(** mod.rs 403-431: [insert_reduce], [insert_shift], [insert_error], [insert_accept]. *)
Definition push_entry (state : nat) (s : symbol) (e : table_entry) (tb : lr_table) : lr_table :=
  mkTable (map_insert (state, s) (get_or_empty (state, s) (tb_entries tb) ++ [e]) (tb_entries tb)) (tb_states tb) (tb_entry tb).

(** mod.rs 374-393: iteration over the columns of a state. *)
Definition iter_state_terminals (tb : lr_table) (g : grammar) (state : nat) : list (symbol * option (list table_entry)) :=
  map (fun s => (s, get_entry tb state s)) (terminals g ++ [End]).
(** mod.rs 385-393, [iter_state_non_terminals]. *)
Definition iter_state_non_terminals (tb : lr_table) (g : grammar) (state : nat) : list (symbol * option (list table_entry)) :=
  map (fun s => (s, get_entry tb state s)) (non_terminals g).

(** mod.rs 492-507: the reductions of one item. *)
Definition table_reduce (g : grammar) (n state : nat) (tb : lr_table) (it : item) : lres lr_table :=
  match symbol_after_dot g it with
  | Some _ => Ok tb
  | None =>
    match n with
    | 0 => Ok (fold_left (fun tb s => push_entry state s (Reduce (it_rule it)) tb) (all_symbols g ++ [End]) tb)
    | 1 => match it_la it with [] => Panic | x :: _ => Ok (push_entry state x (Reduce (it_rule it)) tb) end
    | _ => Panic
    end
  end.

(** mod.rs 508-512: targets by symbol (a later edge of the iteration overwrites). *)
Definition reachable_states (pg : lr_graph) (state : nat) : list (symbol * nat) :=
  fold_left (fun m e => map_insert (fst e) (snd e) m) (out_edges pg state) [].

(** mod.rs 513-525: the other entries of one column. *)
Definition table_column (g : grammar) (entry state : nat) (reachable : list (symbol * nat)) (tb : lr_table) (s : symbol) : lr_table :=
  if eqc s (g_entry g) && (state =? entry) then push_entry state s Accept tb
  else match map_get s reachable with
       | Some target => push_entry state s (Shift target) tb
       | None => match get_entry tb state s with None => push_entry state s Error tb | Some _ => tb end
       end.

(** mod.rs 491-526: one state. *)
Definition table_state (g : grammar) (pg : lr_graph) (n entry : nat) (tb : lr_table) (e : list item * nat) : lres lr_table :=
  do tb <- foldM (table_reduce g n (snd e)) (fst e) tb;
  Ok (fold_left (table_column g entry (snd e) (reachable_states pg (snd e))) (all_symbols g) tb).

(** mod.rs 482-528, [build_table]. *)
Definition build_table (g : grammar) (pg : lr_graph) (n entry : nat) : lres lr_table :=
  foldM (table_state g pg n entry) (bidi_iter (lg_map pg)) (mkTable [] (lg_nodes pg) entry).

(** mod.rs 448-455, [GenerationResult]. *)
Inductive generation_result : Type :=
| NoConflicts (tb : lr_table)
| AllowedConflicts (tb : lr_table) (conflicts : list conflict)
| BadConflicts (conflicts : list conflict).

(** mod.rs 457-480, [generate_table]. *)
Definition generate_table (fuel : nat) (g : grammar) (n : nat) (allow_conflicts lalr : bool) : lres generation_result :=
  do fs <- (if 0 <? n then compute_first_sets fuel g else Ok []);
  do (entry, pg) <- generate_parser_graph fuel g n lalr fs;
  do conflicts <- find_conflicts g pg n;
  if negb allow_conflicts && match conflicts with [] => false | _ => true end then Ok (BadConflicts conflicts)
  else
    do tb <- build_table g pg n entry;
    Ok (match conflicts with [] => NoConflicts tb | _ => AllowedConflicts tb conflicts end).

(** ** lapex-rust-codegen/src/lr_parser/mod.rs: the emitted parser *)

(** codegen 411 and 447: tokens as seen by the parser; [None] is [TokenType::EndOfFile].  Enum variants are identified with the
    symbols they are generated for. *)
Definition token := option N.

(** codegen 371-379: arms of the emitted [match]es. *)
Inductive lr_action : Type := ActShift | ActReduce (rule : nat).
(** codegen 376-379, [Goto]. *)
Inductive lr_goto : Type := GotoAccept | GotoState (state : nat).
(** codegen 203-205 and 232-249: an arm of the match of line 412. *)
Inductive action_arm : Type :=
| OnToken (state : nat) (t : token) (a : lr_action)
| OnOther (state : nat) (expected : list token).

(** codegen 130-173, [make_goto]. *)
Definition make_goto (s : symbol) (state : nat) (e : table_entry) : list ((nat * symbol) * lr_goto) :=
  match s with
  | Terminal _ | NonTerminal _ =>
    match e with
    | Shift target => [((state, s), GotoState target)]
    | Accept => [((state, s), GotoAccept)]
    | _ => []
    end
  | _ => []
  end.

(** codegen 105-128, [make_gotos]. *)
Definition goto_cell (state : nat) (acc : list ((nat * symbol) * lr_goto)) (c : symbol * option (list table_entry))
  : lres (list ((nat * symbol) * lr_goto)) :=
  match snd c with
  | Some [e] => Ok (acc ++ make_goto (fst c) state e)
  | Some _ => Panic
  | None => Ok acc
  end.
(** codegen 105-128, [make_gotos]. *)
Definition make_gotos (g : grammar) (tb : lr_table) : lres (list ((nat * symbol) * lr_goto)) :=
  foldM (fun acc state => foldM (goto_cell state) (iter_state_terminals tb g state ++ iter_state_non_terminals tb g state) acc)
        (seq 0 (tb_states tb)) [].

(** codegen 252-270: token of a column. *)
Definition column_token (s : symbol) : option token :=
  match s with Terminal t => Some (Some t) | End => Some None | _ => None end.

(** codegen 210-250, [make_action]; [rule_index_map.get(..).unwrap()] fails for the entry rule. *)
Definition make_action (s : symbol) (state : nat) (e : table_entry) : lres (list action_arm) :=
  match column_token s with
  | Some t =>
    match e with
    | Shift _ => Ok [OnToken state t ActShift]
    | Reduce (Some k) => Ok [OnToken state t (ActReduce k)]
    | Reduce None => Panic
    | _ => Ok []
    end
  | None => Ok []
  end.

(** codegen 252-270, [extract_expected_symbols]. *)
Definition expected_symbols (s : symbol) (e : table_entry) : list token :=
  match e with
  | Shift _ | Reduce _ => match column_token s with Some t => [t] | None => [] end
  | _ => []
  end.

(** codegen 175-208, [make_actions]. *)
Definition action_cell (state : nat) (acc : list action_arm * list token) (c : symbol * option (list table_entry))
  : lres (list action_arm * list token) :=
  match snd c with
  | Some [e] =>
    do arms <- make_action (fst c) state e;
    Ok (fst acc ++ arms, snd acc ++ expected_symbols (fst c) e)
  | Some _ => Panic
  | None => Ok acc
  end.
(** codegen 175-208, [make_actions]. *)
Definition make_actions (g : grammar) (tb : lr_table) : lres (list action_arm) :=
  foldM (fun acc state =>
    do (arms, expected) <- foldM (action_cell state) (iter_state_terminals tb g state) ([], []);
    Ok (acc ++ arms ++ [OnOther state expected])) (seq 0 (tb_states tb)) [].

(** codegen 272-291, [make_rule_reductions]: how many symbols to pop and what to push. *)
Definition make_reduction (r : rule) : lres (nat * symbol) :=
  match r_lhs r with
  | Some i => Ok (length (filter not_epsilon (r_rhs r)), NonTerminal i)
  | None => Panic
  end.
(** codegen 272-291, [make_rule_reductions]. *)
Definition make_rule_reductions (g : grammar) : lres (list (nat * symbol)) :=
  foldM (fun acc r => do x <- make_reduction r; Ok (acc ++ [x])) (g_rules g) [].

(** codegen 327-486, [write_parser]. *)
Record lr_parser : Type := mkParser {
  lp_entry : nat;
  lp_actions : list action_arm;
  lp_gotos : list ((nat * symbol) * lr_goto);
  lp_reductions : list (nat * symbol)
}.
(** codegen 327-346, [write_parser], the parts which depend on the grammar. *)
Definition write_parser (g : grammar) (tb : lr_table) : lres lr_parser :=
  do actions <- make_actions g tb;
  do gotos <- make_gotos g tb;
  do reductions <- make_rule_reductions g;
  Ok (mkParser (tb_entry tb) actions gotos reductions).

(** codegen 359-364, [StackSymbol]. *)
Inductive stack_symbol : Type :=
| KTerminal (t : token)
| KNonTerminal (i : N)
| KState (state : nat).

(** codegen 381-387, [ParserError]. *)
Inductive lr_error : Type := UnexpectedTok (got : token) (expected : list token).

(** codegen 411-416, [next_action]: the first arm that matches. *)
Fixpoint next_action (arms : list action_arm) (state : nat) (t : token) : res lr_error lr_action :=
  match arms with
  | [] => Panic
  | OnToken s t' a :: arms => if (state =? s) && eqc t t' then Ok a else next_action arms state t
  | OnOther s expected :: arms => if state =? s then Err (UnexpectedTok t expected) else next_action arms state t
  end.

(** codegen 418-423, [next_goto]. *)
Fixpoint next_goto (arms : list ((nat * symbol) * lr_goto)) (state : nat) (k : stack_symbol) : res lr_error lr_goto :=
  match arms with
  | [] => Panic
  | ((s, x), go) :: arms =>
    if (state =? s) && match x, k with Terminal t, KTerminal t' => eqc (Some t) t' | NonTerminal i, KNonTerminal i' => eqc i i' | _, _ => false end
    then Ok go else next_goto arms state k
  end.

(** codegen 429-432: popping symbol and state [n] times. *)
Fixpoint pop_pairs (n : nat) (stack : list stack_symbol) : res lr_error (list stack_symbol) :=
  match n with
  | O => Ok stack
  | S n => match stack with _ :: _ :: stack => pop_pairs n stack | _ => Panic end
  end.

(** codegen 434-436 and 457: calls of the visitor; the method of a rule is identified by its position. *)
Inductive lr_event : Type := EShift (t : token) | EReduce (rule : nat).

(** codegen 425-437, [reduce_stack_and_visit]. *)
Definition reduce_stack (p : lr_parser) (rule : nat) (stack : list stack_symbol) : res lr_error (list stack_symbol) :=
  match nth_error (lp_reductions p) rule with
  | None => Panic
  | Some (to_pop, reduced) =>
    do stack <- pop_pairs to_pop stack;
    match reduced with NonTerminal i => Ok (KNonTerminal i :: stack) | _ => Panic end
  end.

(** codegen 447 and 459: the token stream: [tokens] and then [EndOfFile] for ever. *)
Definition peek (tokens : list N) : token := hd_error tokens.

(** codegen 447-464: action, visitor call and new stack. *)
Definition lr_act (p : lr_parser) (stack : list stack_symbol) (tokens : list N)
  : list lr_event * res lr_error (list stack_symbol * list N) :=
  match stack with
  | KState state :: _ =>
    match next_action (lp_actions p) state (peek tokens) with
    | Ok ActShift => ([EShift (peek tokens)], Ok (KTerminal (peek tokens) :: stack, tl tokens))
    | Ok (ActReduce rule) =>
      match reduce_stack p rule stack with
      | Ok stack => ([EReduce rule], Ok (stack, tokens))
      | Err e => ([], Err e)
      | Panic => ([], Panic)
      | OutOfFuel => ([], OutOfFuel)
      end
    | Err e => ([], Err e)
    | Panic => ([], Panic)
    | OutOfFuel => ([], OutOfFuel)
    end
  | _ => ([], Panic)
  end.

(** codegen 465-479: goto. *)
Definition lr_goto_step (p : lr_parser) (stack : list stack_symbol) : res lr_error (list stack_symbol) :=
  match stack with
  | current :: KState state :: rest =>
    do go <- next_goto (lp_gotos p) state current;
    match go with
    | GotoAccept => Ok rest
    | GotoState s => Ok (KState s :: stack)
    end
  | _ => Panic
  end.

(** codegen 439-482, the loop of [parse]: visitor calls and result; on success the tokens which were not shifted. *)
Fixpoint lr_run (fuel : nat) (p : lr_parser) (stack : list stack_symbol) (tokens : list N)
  : list lr_event * res lr_error (list N) :=
  match fuel with
  | O => ([], OutOfFuel)
  | S fuel =>
    match stack with
    | [] => ([], Ok tokens)
    | _ =>
      let '(ev, r) := lr_act p stack tokens in
      match r with
      | Ok (stack, tokens) =>
        match lr_goto_step p stack with
        | Ok stack => let '(ev', r) := lr_run fuel p stack tokens in (ev ++ ev', r)
        | Err e => (ev, Err e)
        | Panic => (ev, Panic)
        | OutOfFuel => (ev, OutOfFuel)
        end
      | Err e => (ev, Err e)
      | Panic => (ev, Panic)
      | OutOfFuel => (ev, OutOfFuel)
      end
    end
  end.

(** codegen 439-482, [parse]. *)
Definition lr_parse (fuel : nat) (p : lr_parser) (tokens : list N) : list lr_event * res lr_error (list N) :=
  lr_run fuel p [KState (lp_entry p)] tokens.
