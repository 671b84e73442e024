(** Model of lapex-parser/src/lr_parser/mod.rs 24-480 with what [LRModel] leaves out: the addresses by which rules are ordered, the
    order in which hash sets are iterated, and the cache of item sets.  Definitions only.  What does not depend on these (items,
    lookaheads, lookup of rules, cells of a state) is taken from [LRModel]. *)
From Coq Require Import List Arith NArith Bool.
From Verif Require Import Base InputModel GrammarModel LLModel LRModel.
Import ListNotations.
Local Open Scope nat_scope.
Local Open Scope list_scope.

(** item.rs 36-58: the address of a rule; [None] is the entry rule, [Some k] the k-th rule of the grammar.  Different rules have
    different addresses. *)
Record layout : Type := mkLayout {
  addr : option nat -> N;
  addr_inj : forall a b, addr a = addr b -> a = b
}.

(** item.rs 42-58 and 60-65: the derived order of [Item]. *)
Definition address_key (L : layout) (i : item) : N * (nat * list symbol) := (addr L (it_rule i), (it_dot i, it_la i)).
(** item.rs 42-58 and 60-65, [Ord] of [Item]. *)
Definition CmpItemAt (L : layout) : Cmp item.
Proof.
  refine {| cmp := fun i j => cmp (address_key L i) (address_key L j) |}.
  - intros [a b c] [a' b' c']. rewrite cmp_eq. unfold address_key. simpl. split; [intros H|intros [= -> -> ->]; reflexivity].
    injection H as H -> ->. apply addr_inj in H. subst. reflexivity.
  - intros a b. apply cmp_opp.
  - intros a b c. apply cmp_trans.
Defined.

(** mod.rs 267-278, [Ord] of [Conflict]; the items in it are ordered by address. *)
Definition CmpConflictAt (L : layout) : Cmp conflict.
Proof.
  refine {| cmp := fun i j => @cmp _ (CmpPair (CB := CmpPair (CB := CmpPair (CA := CmpList (CA := CmpItemAt L))))) (conflict_key i) (conflict_key j) |}.
  - intros a b. rewrite cmp_eq. split; [|congruence]. destruct a, b; simpl; congruence.
  - intros a b. apply cmp_opp.
  - intros a b c. apply cmp_trans.
Defined.

(** mod.rs 25, [ItemHashSet]: the elements, in the order of insertion; [hash_order] gives the order in which they are iterated, which
    may be another one every time (the first argument tells the iterations apart). *)
Definition hash_order := nat -> list item -> list item.

Section Hash.
Variable L : layout.
Variable order : hash_order.

#[local] Instance by_address : Cmp item := CmpItemAt L.
#[local] Instance conflicts_by_address : Cmp conflict := CmpConflictAt L.

(** mod.rs 43: the cache, used by key only. *)
Definition item_cache := list (item * list item).

(** mod.rs 27-31, [get_lr0_core]. *)
Definition h_core (set : list item) : list item := set_of_list (map to_lr0 set).
(** mod.rs 33-37, [get_hash_lr0_core]. *)
Definition h_hash_core (time : nat) (set : list item) : list item := set_of_list (map to_lr0 (order time set)).

(** mod.rs 58-67: one lookahead for one rule. *)
Definition h_expand_lookahead (g : grammar) (k : nat) (st : list item * list item) (la : list symbol) : lres (list item * list item) :=
  let '(set, to_expand) := st in
  do it <- new_item g k la;
  if set_mem it set then Ok st else Ok (set_insert it set, it :: to_expand).
(** mod.rs 54-68: one rule. *)
Definition h_expand_rule (g : grammar) (n : nat) (fs : symbol_sets) (top : item) (st : list item * list item) (k : nat)
  : lres (list item * list item) :=
  do las <- determine_lookaheads g n fs top;
  foldM (h_expand_lookahead g k) las st.
(** mod.rs 51-71: one item taken from the stack. *)
Definition h_expand_top (g : grammar) (n : nat) (fs : symbol_sets) (top : item) (st : list item * list item) : lres (list item * list item) :=
  match symbol_after_dot g top with
  | Some s => foldM (h_expand_rule g n fs top) (rules_for g s) st
  | None => Ok st
  end.
(** mod.rs 50-72: the loop. *)
Fixpoint h_expand_loop (fuel : nat) (g : grammar) (n : nat) (fs : symbol_sets) (set to_expand : list item) : lres (list item) :=
  match fuel with
  | O => OutOfFuel
  | S fuel =>
    match to_expand with
    | [] => Ok set
    | top :: to_expand =>
      do (set, to_expand) <- h_expand_top g n fs top (set, to_expand);
      h_expand_loop fuel g n fs set to_expand
    end
  end.
(** mod.rs 39-74, [expand_item]: the set in the cache, or else the computed one, which is put into the cache. *)
Definition h_expand_item (fuel : nat) (g : grammar) (n : nat) (fs : symbol_sets) (cache : item_cache) (it : item) : lres (list item * item_cache) :=
  match map_get it cache with
  | Some set => Ok (set, cache)
  | None =>
    do set <- h_expand_loop fuel g n fs [it] [it];
    Ok (set, map_insert it set cache)
  end.

(** mod.rs 125-131, [add_state]. *)
Definition h_add_state (pg : lr_graph) (set : list item) : nat * lr_graph :=
  let node := lg_nodes pg in
  (node, mkGraph (bidi_insert set node (lg_map pg)) (map_insert (h_core set) node (lg_cores pg)) (S node) (lg_edges pg)).

(** mod.rs 255-264: the closure of [merge_into_state]. *)
Definition h_insert_items (new set : list item) : list item * bool :=
  fold_left (fun st it => (set_insert it (fst st), snd st || negb (set_mem it (fst st)))) new (set, false).
(** mod.rs 250-265, [merge_into_state], with 137-146. *)
Definition h_merge_into_state (pg : lr_graph) (state : nat) (new : list item) : lres (bool * lr_graph) :=
  do (removed, m) <- bidi_remove_by_b state (lg_map pg);
  match removed with
  | None => Panic
  | Some (set, state) =>
    let '(set, reprocess) := h_insert_items new set in
    Ok (reprocess, mkGraph (bidi_insert set state m) (map_insert (h_core set) state (lg_cores pg)) (lg_nodes pg) (lg_edges pg))
  end.

(** mod.rs 198: [extend] of a hash set. *)
Definition h_extend (h set : list item) : list item := h ++ filter (fun it => negb (existsb (eqc it) h)) set.

(** mod.rs 188-201: the transition of one item. *)
Definition h_item_transition (fuel : nat) (g : grammar) (n : nat) (fs : symbol_sets) (st : list (symbol * list item) * item_cache) (it : item)
  : lres (list (symbol * list item) * item_cache) :=
  let '(tm, cache) := st in
  match symbol_after_dot g it, lhs_of g (it_rule it) with
  | Some s, Some _ =>
    do target <- advance_dot g it;
    do (set, cache) <- h_expand_item fuel g n fs cache target;
    Ok (map_insert s (h_extend (get_or_empty s tm) set) tm, cache)
  | _, _ => Ok (tm, cache)
  end.

(** mod.rs 202-231: the state for one transition.  The hash set is iterated by line 205 (through 33-37) and by line 207, 214 or 221; every transition
    adds an edge, so that the number of edges tells the iterations apart. *)
Definition h_add_target (lalr : bool) (start : nat) (st : lr_graph * list nat) (e : symbol * list item) : lres (lr_graph * list nat) :=
  let '(pg, todo) := st in
  let '(edge, hash_set) := e in
  let time := 2 * length (lg_edges pg) in
  if lalr then
    match map_get (h_hash_core time hash_set) (lg_cores pg) with
    | Some state =>
      let set := set_of_list (order (time + 1) hash_set) in
      do (merged, pg) <- h_merge_into_state pg state set;
      Ok (add_transition pg start state edge, if merged then state :: todo else todo)
    | None =>
      let set := set_of_list (order (time + 1) hash_set) in
      let '(state, pg) := h_add_state pg set in
      Ok (add_transition pg start state edge, state :: todo)
    end
  else
    let set := set_of_list (order time hash_set) in
    match bidi_get_a_to_b set (lg_map pg) with
    | Some state => Ok (add_transition pg start state edge, todo)
    | None =>
      let '(state, pg) := h_add_state pg set in
      Ok (add_transition pg start state edge, state :: todo)
    end.

(** mod.rs 184-232: the loop over unprocessed states; the items of a state are visited in the order of addresses. *)
Fixpoint h_graph_loop (fuel efuel : nat) (g : grammar) (n : nat) (lalr : bool) (fs : symbol_sets) (cache : item_cache) (pg : lr_graph) (todo : list nat)
  : lres lr_graph :=
  match fuel with
  | O => OutOfFuel
  | S fuel =>
    match todo with
    | [] => Ok pg
    | start :: todo =>
      match bidi_get_b_to_a start (lg_map pg) with
      | None => Panic
      | Some set =>
        do (tm, cache) <- foldM (h_item_transition efuel g n fs) set ([], cache);
        do (pg, todo) <- foldM (h_add_target lalr start) tm (pg, todo);
        h_graph_loop fuel efuel g n lalr fs cache pg todo
      end
    end
  end.

(** mod.rs 166-234, [generate_parser_graph]. *)
Definition h_generate_parser_graph (fuel : nat) (g : grammar) (n : nat) (lalr : bool) (fs : symbol_sets) : lres (nat * lr_graph) :=
  do (set, cache) <- h_expand_item fuel g n fs [] (entry_item n);
  let '(entry, pg) := h_add_state empty_graph set in
  do pg <- h_graph_loop fuel fuel g n lalr fs cache pg [entry];
  Ok (entry, pg).

(** mod.rs 294-330: conflicts of one state and lookahead. *)
Definition h_lookahead_conflicts (pg : lr_graph) (n state : nat) (cs : list conflict) (e : list symbol * list item) : lres (list conflict) :=
  let '(la, items) := e in
  match items with
  | [] => Ok cs
  | [it] =>
    foldM (fun cs edge =>
      if 1 <? n then Panic
      else if n =? 1 then
        match la with
        | [] => Panic
        | x :: _ => Ok (if eqc x (fst edge) then set_insert (ShiftReduce state (to_lr0 it) (fst edge)) cs else cs)
        end
      else Ok (set_insert (ShiftReduce state (to_lr0 it) (fst edge)) cs)) (out_edges pg state) cs
  | _ => Ok (set_insert (ReduceReduce state (map to_lr0 items)) cs)
  end.
(** mod.rs 284-331: conflicts of one state, its items in the order of addresses. *)
Definition h_state_conflicts (g : grammar) (pg : lr_graph) (n : nat) (cs : list conflict) (e : list item * nat) : lres (list conflict) :=
  foldM (h_lookahead_conflicts pg n (snd e)) (reducing_items g (fst e)) cs.
(** mod.rs 280-333, [find_conflicts]; states are visited in the order of their item sets. *)
Definition h_find_conflicts (g : grammar) (pg : lr_graph) (n : nat) : lres (list conflict) :=
  foldM (h_state_conflicts g pg n) (bidi_iter (lg_map pg)) [].

(** mod.rs 457-480, [generate_table]; [build_table] visits states and items in the same order. *)
Definition h_generate_table (fuel : nat) (g : grammar) (n : nat) (allow_conflicts lalr : bool) : lres generation_result :=
  do fs <- (if 0 <? n then compute_first_sets fuel g else Ok []);
  do (entry, pg) <- h_generate_parser_graph fuel g n lalr fs;
  do conflicts <- h_find_conflicts g pg n;
  if negb allow_conflicts && match conflicts with [] => false | _ => true end then Ok (BadConflicts conflicts)
  else
    do tb <- build_table g pg n entry;
    Ok (match conflicts with [] => NoConflicts tb | _ => AllowedConflicts tb conflicts end).
End Hash.
