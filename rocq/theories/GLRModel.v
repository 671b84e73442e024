(** Model of lapex-rust-codegen/src/glr_parser/mod.rs: the emitted GLR parser.  Definitions only.

    Line numbers refer to that file.  The nodes of the graph-structured stack are shared and mutable
    ([Rc<RefCell<..>>]), so they live in an explicit heap.  The [recorded] cell of a [GraphNode] is carried as
    a value: [clone_and_fork_record] copies it whenever a stack is used twice, and the cell of a node stored
    as a neighbour is never read ([pop] and [unwind_stacks] overwrite it), so cells are not shared by live
    stacks. *)
From Coq Require Import String List Arith NArith Bool.
From Verif Require Import Base InputModel GrammarModel LLModel LRModel.
Import ListNotations.
Local Open Scope nat_scope.
Local Open Scope list_scope.

(** ** The emitted tables *)

(** 228-264: arms of the emitted [next_actions]. *)
Inductive glr_arm : Type :=
| GOnToken (state : nat) (t : token) (actions : list lr_action)
| GOnOther (state : nat) (expected : list token).

(** 156-181, [make_gotos]: as for LR, but all entries of a cell are written ([make_goto], 183-226, is the same function). *)
Definition glr_goto_cell (state : nat) (acc : list ((nat * symbol) * lr_goto)) (c : symbol * option (list table_entry))
  : list ((nat * symbol) * lr_goto) :=
  match snd c with
  | Some es => acc ++ flat_map (make_goto (fst c) state) es
  | None => acc
  end.
(** 156-181, [make_gotos]. *)
Definition glr_make_gotos (g : grammar) (tb : lr_table) : list ((nat * symbol) * lr_goto) :=
  fold_left (fun acc state => fold_left (glr_goto_cell state) (iter_state_terminals tb g state ++ iter_state_non_terminals tb g state) acc)
            (seq 0 (tb_states tb)) [].

(** 287-307: actions of one cell; [rule_index_map.get(..).unwrap()] fails for the entry rule. *)
Definition glr_actions_for_entry (acc : list lr_action) (e : table_entry) : lres (list lr_action) :=
  match e with
  | Shift _ => Ok (acc ++ [ActShift])
  | Reduce (Some k) => Ok (acc ++ [ActReduce k])
  | Reduce None => Panic
  | _ => Ok acc
  end.

(** 266-314, [make_action]. *)
Definition glr_make_action (s : symbol) (state : nat) (es : list table_entry) : lres (list glr_arm) :=
  match column_token s with
  | Some t =>
    do actions <- foldM glr_actions_for_entry es [];
    Ok (match actions with [] => [] | _ => [GOnToken state t actions] end)
  | None => Ok []
  end.

(** 228-264, [make_actions]; the expected symbols are a [BTreeSet] (316-334, [extract_expected_symbols]). *)
Definition glr_action_cell (state : nat) (acc : list glr_arm * list token) (c : symbol * option (list table_entry))
  : lres (list glr_arm * list token) :=
  match snd c with
  | Some es =>
    let expected := fold_left (fun set t => set_insert t set) (flat_map (expected_symbols (fst c)) es) (snd acc) in
    do arms <- glr_make_action (fst c) state es;
    Ok (fst acc ++ arms, expected)
  | None => Ok acc
  end.
(** 228-264, [make_actions]. *)
Definition glr_make_actions (g : grammar) (tb : lr_table) : lres (list glr_arm) :=
  foldM (fun acc state =>
    do (arms, expected) <- foldM (glr_action_cell state) (iter_state_terminals tb g state) ([], []);
    Ok (acc ++ arms ++ [GOnOther state expected])) (seq 0 (tb_states tb)) [].

(** 391-395, [write_parser]; 336-355, [make_rule_reductions], is the same function as for LR. *)
Record glr_parser : Type := mkGParser {
  gp_entry : nat;
  gp_actions : list glr_arm;
  gp_gotos : list ((nat * symbol) * lr_goto);
  gp_reductions : list (nat * symbol)
}.
(** 391-395, [write_parser], the parts which depend on the grammar. *)
Definition glr_write_parser (g : grammar) (tb : lr_table) : lres glr_parser :=
  do actions <- glr_make_actions g tb;
  let gotos := glr_make_gotos g tb in
  do reductions <- make_rule_reductions g;
  Ok (mkGParser (tb_entry tb) actions gotos reductions).

(** ** The graph-structured stack *)

(** 806-809, [GraphNodeInner]. *)
Record gss_node : Type := mkNode { gn_value : option nat; gn_neighbors : list (option stack_symbol * nat) }.
(** 704-707 and 806-809: the nodes allocated so far; an [Rc] is a position. *)
Definition gss_heap := list gss_node.

(** 704-707, [GraphNode]: the shared node and the recorded visits. *)
Record gss : Type := mkGss { gs_node : nat; gs_recorded : list lr_event }.

(** 447-460, [ParserError] without data and lexer errors. *)
Inductive glr_error : Type :=
| GUnexpectedToken (got : token) (expected : list token)
| GUnexpectedTokens (errors : list (token * list token)).
(** 538 and 599: results of the emitted functions. *)
Definition gres := res glr_error.

(** 738-741 and 797-800, [Rc::new]. *)
Definition gss_alloc (h : gss_heap) (n : gss_node) : nat * gss_heap := (length h, h ++ [n]).

(** 750-787, [self.inner.borrow()]: following an [Rc].  A dangling reference has no counterpart in the code. *)
Definition gss_inner (h : gss_heap) (i : nat) : gres gss_node :=
  match nth_error h i with Some n => Ok n | None => Panic end.

(** 750-756, [top]; 785-787, [is_root]. *)
Definition gss_top (h : gss_heap) (i : nat) : gres (option nat) := do n <- gss_inner h i; Ok (gn_value n).
(** 785-787, [is_root]. *)
Definition gss_is_root (h : gss_heap) (s : gss) : bool :=
  match nth_error h (gs_node s) with Some n => match gn_value n with None => true | Some _ => false end | None => false end.

(** 789-804, [push] with [new_with_same_record] and [add_edge]. *)
Definition gss_push (h : gss_heap) (i : nat) (value : option nat) (edge : option stack_symbol) : nat * gss_heap :=
  gss_alloc h (mkNode value [(edge, i)]).

(** 763-769, [self.inner.borrow_mut()]: replacing a node. *)
Fixpoint gss_set (h : gss_heap) (i : nat) (n : gss_node) : gss_heap :=
  match h, i with
  | [], _ => []
  | _ :: h, O => n :: h
  | m :: h, S i => m :: gss_set h i n
  end.

(** 762-775, [pop]: the neighbour is removed from the (shared) node. *)
Definition gss_pop (h : gss_heap) (i : nat) : gres (nat * gss_heap) :=
  do n <- gss_inner h i;
  match gn_neighbors n with
  | [(_, j)] => Ok (j, gss_set h i (mkNode (gn_value n) []))
  | _ => Panic
  end.

(** 717-732, [unwind_stacks]: copies of the upper [depth] nodes, one for each path. *)
Fixpoint unwind_stacks (depth : nat) (h : gss_heap) (i : nat) : gres (gss_heap * list nat) :=
  match depth with
  | O => Ok (h, [i])
  | S depth =>
    do n <- gss_inner h i;
    foldM (fun st e =>
      do (h, parents) <- unwind_stacks depth (fst st) (snd e);
      Ok (fold_left (fun st j => let '(k, h) := gss_push (fst st) j (gn_value n) (fst e) in (h, snd st ++ [k])) parents (h, snd st)))
      (gn_neighbors n) (h, [])
  end.

(** ** The parser *)

(** 512-517, [next_actions]. *)
Fixpoint glr_next_actions (arms : list glr_arm) (state : nat) (t : token) : gres (list lr_action) :=
  match arms with
  | [] => Panic
  | GOnToken s t' actions :: arms => if (state =? s) && eqc t t' then Ok actions else glr_next_actions arms state t
  | GOnOther s expected :: arms => if state =? s then Err (GUnexpectedToken t expected) else glr_next_actions arms state t
  end.

(** 519-524, [next_goto]. *)
Fixpoint glr_next_goto (arms : list ((nat * symbol) * lr_goto)) (state : nat) (k : stack_symbol) : option lr_goto :=
  match arms with
  | [] => None
  | ((s, x), go) :: arms =>
    if (state =? s) && match x, k with Terminal t, KTerminal t' => eqc (Some t) t' | NonTerminal i, KNonTerminal i' => eqc i i' | _, _ => false end
    then Some go else glr_next_goto arms state k
  end.

(** 600-605, the variables of [apply_reduces]: heap, stacks ready for a shift ([reduced], where accepted stacks go as well), stacks to reduce further. *)
Record glr_state : Type := mkGState { gt_heap : gss_heap; gt_reduced : list gss; gt_todo : list gss }.

(** 653-657: the pops of the reduced symbols. *)
Fixpoint gss_pops (n : nat) (h : gss_heap) (i : nat) : gres (nat * gss_heap) :=
  match n with
  | O => Ok (i, h)
  | S n => do (j, h) <- gss_pop h i; gss_pops n h j
  end.

(** 649-671: one of the unwound stacks; [recorded] are the visits recorded so far. *)
Definition reduce_path (p : glr_parser) (rule to_pop : nat) (reduced : symbol) (recorded : list lr_event) (st : glr_state) (i : nat) : gres glr_state :=
  match reduced with
  | NonTerminal x =>
    let recorded := recorded ++ [EReduce rule] in
    do (j, h) <- gss_pops to_pop (gt_heap st) i;
    do state <- gss_top h j;
    match state with
    | None => Panic
    | Some state =>
      match glr_next_goto (gp_gotos p) state (KNonTerminal x) with
      | Some (GotoState s) =>
        let '(k, h) := gss_push h j (Some s) (Some (KNonTerminal x)) in
        Ok (mkGState h (gt_reduced st) (gt_todo st ++ [mkGss k recorded]))
      | Some GotoAccept =>
        do (root, h) <- gss_pop h j;
        Ok (mkGState h (gt_reduced st ++ [mkGss root recorded]) (gt_todo st))
      | None => Ok (mkGState h (gt_reduced st) (gt_todo st))
      end
    end
  | _ => Panic
  end.

(** 640-673, [apply_reduce]. *)
Definition apply_reduce (p : glr_parser) (rule : nat) (stack : gss) (st : glr_state) : gres glr_state :=
  match nth_error (gp_reductions p) rule with
  | None => Panic
  | Some (to_pop, reduced) =>
    do (h, paths) <- unwind_stacks to_pop (gt_heap st) (gs_node stack);
    foldM (reduce_path p rule to_pop reduced (gs_recorded stack)) paths (mkGState h (gt_reduced st) (gt_todo st))
  end.

(** 611-624: one action of one stack. *)
Definition apply_action (p : glr_parser) (stack : gss) (st : glr_state) (a : lr_action) : gres glr_state :=
  match a with
  | ActReduce rule => apply_reduce p rule stack st
  | ActShift => Ok (mkGState (gt_heap st) (gt_reduced st ++ [stack]) (gt_todo st))
  end.

(** 607-629: one stack; the second component collects the errors. *)
Definition reduce_stack_glr (p : glr_parser) (t : token) (acc : glr_state * list (token * list token)) (stack : gss)
  : gres (glr_state * list (token * list token)) :=
  let '(st, errors) := acc in
  do state <- gss_top (gt_heap st) (gs_node stack);
  match state with
  | None => Panic
  | Some state =>
    match glr_next_actions (gp_actions p) state t with
    | Ok actions => do st <- foldM (apply_action p stack) actions st; Ok (st, errors)
    | Err (GUnexpectedToken got expected) => Ok (st, errors ++ [(got, expected)])
    | Err (GUnexpectedTokens _) => Panic
    | Panic => Panic
    | OutOfFuel => OutOfFuel
    end
  end.

(** 675-693, [combine_errors]. *)
Definition combine_errors (errors : list (token * list token)) : gres (gss_heap * list gss) :=
  match errors with
  | [] => Panic
  | [(got, expected)] => Err (GUnexpectedToken got expected)
  | _ => Err (GUnexpectedTokens errors)
  end.

(** 594-638, [apply_reduces]. *)
Fixpoint apply_reduces (fuel : nat) (p : glr_parser) (t : token) (h : gss_heap) (reduced to_reduce : list gss) : gres (gss_heap * list gss) :=
  match fuel with
  | O => OutOfFuel
  | S fuel =>
    match to_reduce with
    | [] => Ok (h, reduced)
    | _ =>
      do (st, errors) <- foldM (reduce_stack_glr p t) to_reduce (mkGState h reduced [], []);
      match gt_reduced st with
      | [] => if length errors =? length to_reduce then combine_errors errors else apply_reduces fuel p t (gt_heap st) [] (gt_todo st)
      | reduced => apply_reduces fuel p t (gt_heap st) reduced (gt_todo st)
      end
    end
  end.

(** 560-575: shifting one stack. *)
Definition shift_stack (p : glr_parser) (t : token) (acc : gss_heap * list gss) (stack : gss) : gres (gss_heap * list gss) :=
  let '(h, stacks) := acc in
  do state <- gss_top h (gs_node stack);
  match state with
  | None => Panic
  | Some state =>
    match glr_next_goto (gp_gotos p) state (KTerminal t) with
    | Some (GotoState s) =>
      let '(k, h) := gss_push h (gs_node stack) (Some s) (Some (KTerminal t)) in
      Ok (h, stacks ++ [mkGss k (gs_recorded stack ++ [EShift t])])
    | Some GotoAccept => Panic
    | None => Ok acc
    end
  end.

(** 546-578: one pass of the loop up to the new stacks. *)
Definition glr_pass (fuel : nat) (p : glr_parser) (t : token) (h : gss_heap) (stacks : list gss) : gres (gss_heap * list gss) :=
  do (h, reduced) <- apply_reduces fuel p t h [] stacks;
  if existsb (gss_is_root h) reduced then Ok (h, reduced)
  else foldM (shift_stack p t) reduced (h, []).

(** 545-592, the loop of [parse]: visitor calls and result; on success the tokens behind the token which was
    looked at last.  [rfuel] is the fuel of [apply_reduces]. *)
Fixpoint glr_run (fuel rfuel : nat) (p : glr_parser) (h : gss_heap) (stacks : list gss) (tokens : list N)
  : list lr_event * gres (list N) :=
  match fuel with
  | O => ([], OutOfFuel)
  | S fuel =>
    if match stacks with [s] => gss_is_root h s | _ => false end then ([], Ok tokens)
    else
      match glr_pass rfuel p (peek tokens) h stacks with
      | Ok (h, [s]) =>
        let '(ev, r) := glr_run fuel rfuel p h [mkGss (gs_node s) []] (tl tokens) in (gs_recorded s ++ ev, r)
      | Ok (h, stacks) => glr_run fuel rfuel p h stacks (tl tokens)
      | Err e => ([], Err e)
      | Panic => ([], Panic)
      | OutOfFuel => ([], OutOfFuel)
      end
  end.

(** 538-544: the root and the entry state. *)
Definition glr_parse (fuel : nat) (p : glr_parser) (tokens : list N) : list lr_event * gres (list N) :=
  glr_run fuel fuel p [mkNode None []; mkNode (Some (gp_entry p)) [(None, 0)]] [mkGss 1 []] tokens.
