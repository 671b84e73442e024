(** Model of the lexer generator: crates lapex-lexer and lapex-automaton, and of the lexer emitted by
    lapex-rust-codegen/src/lexer/mod.rs.  Definitions only. *)
From Coq Require Import String List Arith NArith Bool.
From Verif Require Import Base InputModel.
Import ListNotations.
Open Scope nat_scope.

(** lapex-lexer/src/lib.rs 13-17, [PrecedenceError].  In place of the names and spans of the rules (20-24) it holds the rules; PipelineModel.v puts back
    their spans. *)
Inductive lex_err : Type := PrecedenceError (rules : list token_rule) (precedence : N).

(** ** Alphabet *)

(** lapex-lexer/src/alphabet.rs 5-8: inclusive ranges of code points. *)
Definition alphabet := list (N * N).

(** [slice::binary_search_by_key] on the range starts (alphabet.rs 12-14): [inl i] is [Ok(i)], [inr i]
    is [Err(i)].  Simplification: computed by a linear scan, which gives the documented result of the
    binary search on a slice sorted by start. *)
Fixpoint bsearch (ch : N) (rs : alphabet) (i : nat) : nat + nat :=
  match rs with
  | [] => inr i
  | (s, _) :: rs' =>
    match N.compare s ch with
    | Eq => inl i
    | Lt => bsearch ch rs' (S i)
    | Gt => inr i
    end
  end.

(** alphabet.rs 11-25, [Alphabet::find_range].  [index - 1] underflows (panics) for index 0. *)
Definition find_range (al : alphabet) (ch : N) : res lex_err (option nat) :=
  match bsearch ch al 0 with
  | inl i => Ok (Some i)
  | inr 0 => Panic
  | inr (S j) =>
    match nth_error al j with
    | None => Panic
    | Some (s, e) => if (s <=? ch)%N && (ch <=? e)%N then Ok (Some j) else Ok None
    end
  end.

(** alphabet.rs 57-67 and 69-77: characters mentioned by a [Characters]. *)
Definition get_chars_from_characters (chars : list N) (c : characters) : list N :=
  match c with
  | Single c => set_insert c chars
  | CRange c1 c2 => set_insert c2 (set_insert c1 chars)
  end.

(** alphabet.rs 36-79, [get_chars_from_pattern]; the [&mut BTreeSet] is returned. *)
Fixpoint get_chars_from_pattern (p : pattern) (chars : list N) : list N :=
  match p with
  | PSeq l => fold_left (fun acc f => f acc) (map get_chars_from_pattern l) chars
  | PAlt l => fold_left (fun acc f => f acc) (map get_chars_from_pattern l) chars
  | PRep _ _ q => get_chars_from_pattern q chars
  | PSet cs _ => fold_left get_chars_from_characters cs chars
  | PChar c => get_chars_from_characters chars c
  end.

(** alphabet.rs 82-92: the set of characters. *)
Definition alphabet_chars (rules : list token_rule) : list N :=
  let chars := fold_left (fun acc r => get_chars_from_pattern (rule_pattern r) acc) rules [] in
  set_insert CHAR_MAX (set_insert 0%N chars).

(** alphabet.rs 98-104: the loop pushing gap ranges and singleton ranges. *)
Fixpoint gap_ranges (prev : N) (l : list N) : alphabet :=
  match l with
  | [] => []
  | ch :: l' =>
    (if (1 <? ch - prev)%N then [(prev + 1, ch - 1)%N] else []) ++ (ch, ch) :: gap_ranges ch l'
  end.

(** alphabet.rs 81-106, [generate_alphabet]. *)
Definition generate_alphabet (rules : list token_rule) : res lex_err alphabet :=
  match alphabet_chars rules with
  | [] => Panic
  | prev :: rest => Ok ((prev, prev) :: gap_ranges prev rest)
  end.

(** ** Automata *)

(** lapex-automaton/src/lib.rs 17-21, [AutomatonState]. *)
Inductive astate (A : Type) : Type :=
| Accepting (a : A)
| Intermediate (n : nat).
Arguments Accepting {A} a.
Arguments Intermediate {A} n.

(** lapex-automaton/src/lib.rs 46-50, [Nfa].  A petgraph graph is its node weights (index = node id)
    and its edges, most recently added first, which is the order of [edges_directed].  An edge label
    [None] is [NfaEdge::Epsilon], [Some t] is [NfaEdge::Transition(t)] (lines 23-26). *)
Record nfa (A : Type) : Type := mkNfa {
  nfa_nodes : list (astate A);
  nfa_edges : list (nat * option nat * nat);
  nfa_count : nat
}.
Arguments mkNfa {A}.
Arguments nfa_nodes {A}.
Arguments nfa_edges {A}.
Arguments nfa_count {A}.

Section Nfa.
Context {A : Type}.

(** lapex-automaton/src/lib.rs 53-58. *)
Definition nfa_new : nfa A := mkNfa [] [] 0.

(** lib.rs 64-71, [add_intermediate_state]: new graph and id of the added node. *)
Definition add_intermediate (g : nfa A) : nfa A * nat :=
  (mkNfa (nfa_nodes g ++ [Intermediate (nfa_count g)]) (nfa_edges g) (S (nfa_count g)),
   length (nfa_nodes g)).

(** lib.rs 73-75, [add_accepting_state]. *)
Definition add_accepting (g : nfa A) (a : A) : nfa A * nat :=
  (mkNfa (nfa_nodes g ++ [Accepting a]) (nfa_edges g) (nfa_count g), length (nfa_nodes g)).

(** lib.rs 77-79, [add_epsilon_transition]. *)
Definition add_eps (s e : nat) (g : nfa A) : nfa A :=
  mkNfa (nfa_nodes g) ((s, None, e) :: nfa_edges g) (nfa_count g).

(** lib.rs 81-89, [add_transition]. *)
Definition add_trans (s e t : nat) (g : nfa A) : nfa A :=
  mkNfa (nfa_nodes g) ((s, Some t, e) :: nfa_edges g) (nfa_count g).

(** lapex-lexer/src/nfa/mod.rs 54-60: a call [build_nfa_from_pattern(start, end, alphabet, nfa, p)] with [alphabet] and [p] fixed. *)
Definition builder := nat -> nat -> nfa A -> res lex_err (nfa A).

(** lapex-lexer/src/nfa/mod.rs 22-34: the loop of [chain_pattern_iterator]. *)
Fixpoint chain_go (bs : list builder) (inner_start fin : nat) (g : nfa A) (inter : list nat)
  : res lex_err (nfa A * list nat) :=
  match bs with
  | [] => Ok (g, inter)
  | [b] => do g' <- b inner_start fin g; Ok (g', inter)
  | b :: rest =>
    let '(g1, m) := add_intermediate g in
    do g2 <- b inner_start m g1;
    chain_go rest m fin g2 (inter ++ [m])
  end.

(** nfa/mod.rs 9-35, [chain_pattern_iterator]; the patterns are given as builders. *)
Definition chain_pattern_iterator (bs : list builder) (start fin : nat) (g : nfa A)
  : res lex_err (nfa A * list nat) :=
  match bs with
  | [] => Panic
  | _ => chain_go bs start fin g []
  end.

(** nfa/mod.rs 37-52, [chain_pattern_times]. *)
Definition chain_pattern_times (times : nat) (b : builder) (start fin : nat) (g : nfa A)
  : res lex_err (nfa A * list nat) :=
  chain_pattern_iterator (repeat b times) start fin g.

(** nfa/mod.rs 67-75: the loop over the elements of an alternative. *)
Fixpoint build_alternatives (bs : list builder) (start fin : nat) (g : nfa A) : res lex_err (nfa A) :=
  match bs with
  | [] => Ok g
  | b :: rest =>
    let '(g1, is) := add_intermediate g in
    let '(g2, ie) := add_intermediate g1 in
    do g3 <- b is ie g2;
    build_alternatives rest start fin (add_eps ie fin (add_eps start is g3))
  end.

(** nfa/mod.rs 76-130: the repetition case. [max - min] panics on underflow (debug arithmetic). *)
Definition build_repetition (mn : N) (mx : option N) (b : builder) (start fin : nat) (g : nfa A)
  : res lex_err (nfa A) :=
  let '(g1, is) := add_intermediate g in
  let '(g2, ie) := add_intermediate g1 in
  let g3 := add_eps start is g2 in
  match mn, mx with
  | 0%N, None =>
    do g4 <- b is ie g3;
    Ok (add_eps ie fin (add_eps ie is (add_eps start fin g4)))
  | _, _ =>
    do (g4, inter) <- (if (mn =? 0)%N then Ok (add_eps is ie g3, [])
                       else chain_pattern_times (N.to_nat mn) b is ie g3);
    match mx with
    | None =>
      let previous := last inter is in
      Ok (add_eps ie fin (add_eps ie previous g4))
    | Some m =>
      if (m <? mn)%N then Panic else
      let '(g5, ms) := add_intermediate g4 in
      let g6 := add_eps ie ms g5 in
      let '(g7, me) := add_intermediate g6 in
      do (g8, minter) <- chain_pattern_times (N.to_nat (m - mn)) b ms me g7;
      Ok (fold_left (fun h mi => add_eps mi fin h) (minter ++ [ms; me]) g8)
    end
  end.

(** nfa/mod.rs 137-149 and 163-175: alphabet indices of a [Characters]; [None] is the early return by [?]. *)
Definition char_indices (al : alphabet) (c : characters) : res lex_err (option (list nat)) :=
  match c with
  | Single ch =>
    do i <- find_range al ch;
    Ok (option_map (fun i => [i]) i)
  | CRange s e =>
    do i <- find_range al s;
    match i with
    | None => Ok None
    | Some i =>
      do j <- find_range al e;
      match j with
      | None => Ok None
      | Some j => Ok (Some (seq i (S j - i)))
      end
    end
  end.

(** nfa/mod.rs 135-150: the index set of a character set. *)
Fixpoint set_indices (al : alphabet) (cs : list characters) (indices : list nat)
  : res lex_err (option (list nat)) :=
  match cs with
  | [] => Ok (Some indices)
  | c :: cs' =>
    do l <- char_indices al c;
    match l with
    | None => Ok None
    | Some l => set_indices al cs' (set_union indices l)
    end
  end.

(** nfa/mod.rs 151-161 and 171-173: one transition per index. *)
Definition add_all (start fin : nat) (l : list nat) (g : nfa A) : nfa A :=
  fold_left (fun h i => add_trans start fin i h) l g.

(** nfa/mod.rs 54-178, [build_nfa_from_pattern].  Its [Option] result is ignored by every caller, so
    only the graph is returned; an early return by [?] leaves the graph as it is at that point. *)
Fixpoint build_nfa_from_pattern (al : alphabet) (p : pattern) (start fin : nat) (g : nfa A) {struct p}
  : res lex_err (nfa A) :=
  match p with
  | PSeq l =>
    match l with
    | [] => Ok g
    | _ => do (g', _) <- chain_pattern_iterator (map (build_nfa_from_pattern al) l) start fin g; Ok g'
    end
  | PAlt l => build_alternatives (map (build_nfa_from_pattern al) l) start fin g
  | PRep mn mx q => build_repetition mn mx (build_nfa_from_pattern al q) start fin g
  | PSet cs negated =>
    do ix <- set_indices al cs [];
    match ix with
    | None => Ok g
    | Some ix =>
      if negated
      then Ok (add_all start fin (filter (fun i => negb (set_mem i ix)) (seq 0 (length al))) g)
      else Ok (add_all start fin ix g)
    end
  | PChar c =>
    do ix <- char_indices al c;
    match ix with
    | None => Ok g
    | Some ix => Ok (add_all start fin ix g)
    end
  end.

End Nfa.

(** nfa/mod.rs 187-203: loop body of [generate_nfa]. *)
Definition generate_nfa_rule (al : alphabet) (start : nat) (g : nfa token_rule) (r : token_rule)
  : res lex_err (nfa token_rule) :=
  let '(g1, rs) := add_intermediate g in
  let '(g2, re) := add_accepting g1 r in
  build_nfa_from_pattern al (rule_pattern r) rs re (add_eps start rs g2).

(** nfa/mod.rs 180-205, [generate_nfa]. *)
Definition generate_nfa (al : alphabet) (rules : list token_rule) : res lex_err (nat * nfa token_rule) :=
  let '(g0, start) := add_intermediate nfa_new in
  do g <- foldM (generate_nfa_rule al start) rules g0;
  Ok (start, g).

(** ** Powerset construction (lapex-automaton/src/lib.rs) *)

Section Powerset.
Context {A : Type}.
Variable g : nfa A.

(** lapex-automaton/src/lib.rs 147-152: edges leaving a node in [edges_directed] order. *)
Definition eps_targets (n : nat) : list nat :=
  map snd (filter (fun e => match e with (s, None, _) => s =? n | _ => false end) (nfa_edges g)).

(** lapex-automaton/src/lib.rs 183-188: the labelled edges. *)
Definition label_targets (n : nat) : list (nat * nat) :=
  flat_map (fun e => match e with (s, Some t, v) => if s =? n then [(t, v)] else [] | _ => [] end)
    (nfa_edges g).

(** lib.rs 144-159, [epsilon_closure]; fuel bounds the recursion depth. *)
Fixpoint epsilon_closure (fuel : nat) (start_nodes : list nat) (closure : list nat)
  : res lex_err (list nat) :=
  match fuel with
  | 0 => OutOfFuel
  | S f =>
    foldM (fun cl start_node =>
      foldM (fun cl target => if set_mem target cl then Ok cl else epsilon_closure f [target] cl)
        (eps_targets start_node) (set_insert start_node cl)) start_nodes closure
  end.

(** The intermediate graph of state sets (lib.rs 242). *)
Record pgraph : Type := mkPgraph {
  pg_nodes : list (list nat);
  pg_edges : list (nat * nat * nat)
}.

(** lib.rs 181-195: transitions of a closure grouped by label. *)
Definition target_multi_map (closure : list nat) : list (nat * list nat) :=
  fold_left (fun m n =>
    fold_left (fun m tv =>
      let '(t, v) := tv in
      map_insert t (match map_get t m with Some l => l ++ [v] | None => [v] end) m)
      (label_targets n) m) closure [].

(** lib.rs 161-202, [add_powerset_to_dfa]; fuel bounds the recursion depth (and that of the closure). *)
Fixpoint add_powerset_to_dfa (fuel : nat) (d : pgraph) (nodes : list nat) : res lex_err (pgraph * nat) :=
  match fuel with
  | 0 => OutOfFuel
  | S f =>
    do closure <- epsilon_closure (S f) nodes [];
    match find_index (eqc closure) (pg_nodes d) with
    | Some i => Ok (d, i)
    | None =>
      let node_dfa := length (pg_nodes d) in
      let d1 := mkPgraph (pg_nodes d ++ [closure]) (pg_edges d) in
      do d2 <- foldM (fun d e =>
                 let '(t, targets) := e in
                 do (d', target_dfa) <- add_powerset_to_dfa f d targets;
                 Ok (mkPgraph (pg_nodes d') ((node_dfa, t, target_dfa) :: pg_edges d')))
               (target_multi_map closure) d1;
      Ok (d2, node_dfa)
    end
  end.

End Powerset.

(** lib.rs 92-95, [Dfa]. *)
Record dfa (A : Type) : Type := mkDfa {
  dfa_nodes : list (astate A);
  dfa_edges : list (nat * nat * nat);
  dfa_count : nat
}.
Arguments mkDfa {A}.
Arguments dfa_nodes {A}.
Arguments dfa_edges {A}.
Arguments dfa_count {A}.

(** lib.rs 98-103. *)
Definition dfa_new {A} : dfa A := mkDfa [] [] 0.
(** lib.rs 105-112. *)
Definition dfa_add_intermediate {A} (d : dfa A) : dfa A * nat :=
  (mkDfa (dfa_nodes d ++ [Intermediate (dfa_count d)]) (dfa_edges d) (S (dfa_count d)),
   length (dfa_nodes d)).
(** lib.rs 114-116. *)
Definition dfa_add_accepting {A} (d : dfa A) (a : A) : dfa A * nat :=
  (mkDfa (dfa_nodes d ++ [Accepting a]) (dfa_edges d) (dfa_count d), length (dfa_nodes d)).
(** lib.rs 118-125. *)
Definition dfa_add_transition {A} (s e t : nat) (d : dfa A) : dfa A :=
  mkDfa (dfa_nodes d) ((s, t, e) :: dfa_edges d) (dfa_count d).

(** [edges_directed(node, Outgoing)] as (label, target) pairs, most recent first; lib.rs 131-138. *)
Definition out_edges (edges : list (nat * nat * nat)) (n : nat) : list (nat * nat) :=
  flat_map (fun e => match e with (s, t, v) => if s =? n then [(t, v)] else [] end) edges.

(** lapex-automaton/src/lib.rs 131-138, [transitions_from]. *)
Definition transitions_from {A} (d : dfa A) (n : nat) : list (nat * nat) := out_edges (dfa_edges d) n.

(** lib.rs 212-219: accepting labels of a set of NFA states. *)
Definition accepts_of {A} (g : nfa A) (powerset : list nat) : list A :=
  flat_map (fun i => match nth_error (nfa_nodes g) i with Some (Accepting a) => [a] | _ => [] end) powerset.

(** lib.rs 204-236, [convert_powerset_to_dfa] (the unused [tmp_id] is dropped). *)
Fixpoint convert_powerset_to_dfa {A} (g : nfa A) (pg : pgraph) (fuel : nat)
    (d : dfa (list A)) (visited : list (nat * nat)) (node : nat)
  : res lex_err (dfa (list A) * list (nat * nat) * nat) :=
  match fuel with
  | 0 => OutOfFuel
  | S f =>
    match nth_error (pg_nodes pg) node with
    | None => Panic
    | Some powerset =>
      let accepts := accepts_of g powerset in
      let '(d1, start) := match accepts with
                          | [] => dfa_add_intermediate d
                          | _ => dfa_add_accepting d accepts
                          end in
      do (d2, visited2) <-
        foldM (fun st e =>
          let '(d, visited) := st in
          let '(t, target) := e in
          do (d', visited', fin) <-
            match map_get target visited with
            | Some fin => Ok (d, visited, fin)
            | None => convert_powerset_to_dfa g pg f d visited target
            end;
          Ok (dfa_add_transition start fin t d', visited'))
        (out_edges (pg_edges pg) node) (d1, map_insert node start visited);
      Ok (d2, visited2, start)
    end
  end.

(** lib.rs 238-259, [powerset_construction]. *)
Definition powerset_construction {A} (fuel : nat) (g : nfa A) (entrypoint : nat) : res lex_err (dfa (list A)) :=
  do (pg, start_dfa) <- add_powerset_to_dfa g fuel (mkPgraph [] []) [entrypoint];
  do (d, _, _) <- convert_powerset_to_dfa g pg fuel dfa_new [] start_dfa;
  Ok d.

(** ** Precedence (lapex-lexer/src/lib.rs) *)

(** [slice::sort_by_key] with [Reverse]: stable, descending (lib.rs 25). *)
Fixpoint insert_desc {A} (x : A * N) (l : list (A * N)) : list (A * N) :=
  match l with
  | [] => [x]
  | y :: l' => if (snd y <=? snd x)%N then x :: l else y :: insert_desc x l'
  end.
(** lapex-lexer/src/lib.rs 23-25: the sort by precedence. *)
Definition sort_desc {A} (l : list (A * N)) : list (A * N) := fold_right insert_desc [] l.

(** lib.rs 19-42, [resolve_precedence]. *)
Definition resolve_precedence (rules : list token_rule) : res lex_err token_rule :=
  match rules with
  | [] => Panic
  | _ =>
    do precs <- res_list (map rule_precedence rules);
    let sorted_rules := sort_desc (combine rules precs) in
    match sorted_rules with
    | [] => Panic
    | (_, highest) :: _ =>
      let matching := map fst (filter (fun rp => (snd rp =? highest)%N) sorted_rules) in
      match matching with
      | [] => Panic
      | [r] => Ok r
      | _ => Err (PrecedenceError matching highest)
      end
    end
  end.

(** lib.rs 49-61: first loop of [apply_precedence_to_dfa]. *)
Definition apply_state (st : dfa token_rule * list (nat * nat) * nat) (s : astate (list token_rule))
  : res lex_err (dfa token_rule * list (nat * nat) * nat) :=
  let '(d, mapping, idx) := st in
  match s with
  | Accepting accepted =>
    do rule <- resolve_precedence accepted;
    let '(d', new_idx) := dfa_add_accepting d rule in
    Ok (d', map_insert idx new_idx mapping, S idx)
  | Intermediate _ =>
    let '(d', new_idx) := dfa_add_intermediate d in
    Ok (d', map_insert idx new_idx mapping, S idx)
  end.

(** lib.rs 62-70: second loop. *)
Definition apply_edges (old : dfa (list token_rule)) (mapping : list (nat * nat))
    (d : dfa token_rule) (e : nat * nat) : res lex_err (dfa token_rule) :=
  let '(old_idx, new_idx) := e in
  foldM (fun d tv =>
    let '(t, old_target) := tv in
    match map_get old_target mapping with
    | None => Panic
    | Some new_target => Ok (dfa_add_transition new_idx new_target t d)
    end) (transitions_from old old_idx) d.

(** lib.rs 44-72, [apply_precedence_to_dfa]. *)
Definition apply_precedence_to_dfa (old : dfa (list token_rule)) : res lex_err (dfa token_rule) :=
  do (d, mapping, _) <- foldM apply_state (dfa_nodes old) (dfa_new, [], 0);
  foldM (apply_edges old mapping) mapping d.

(** ** Generated Rust lexer (lapex-rust-codegen/src/lexer/mod.rs) *)

(** lexer/mod.rs 27-34: [TokenType].  The variant name is obtained from the rule name by
    [get_token_enum_name], modelled separately; here a variant is the rule it was made from. *)
Inductive token_type : Type :=
| EndOfFile
| Tk (r : token_rule).

(** lexer/mod.rs 98-106. *)
Inductive lexer_error : Type :=
| InvalidChar (bad_ch : N)
| UnexpectedAlphabet (range : N * N).

(** lexer/mod.rs 62-91: what a match arm does. *)
Inductive lex_action : Type :=
| ActEof                      (* (0, 0) => return Ok(EndOfFile) *)
| ActMove (target : nat)      (* consume a character, change state *)
| ActToken (r : token_rule)   (* (s, _) => return Ok(token) *)
| ActUnexpected.              (* (s, transition) => return Err(UnexpectedAlphabet) *)

(** lexer/mod.rs 62-91: a match arm: state, symbol pattern ([None] = wildcard), action. *)
Definition lex_case : Type := nat * option nat * lex_action.

(** lexer/mod.rs 59-93: the match arms of one state. *)
Definition state_cases (d : dfa token_rule) (state_id : nat) (node : astate token_rule) : list lex_case :=
  (if state_id =? 0 then [(state_id, Some 0, ActEof)] else []) ++
  flat_map (fun tv => let '(t, v) := tv in
              if t =? 0 then [] else [(state_id, Some t, ActMove v)]) (transitions_from d state_id) ++
  match node with
  | Accepting r => [(state_id, None, ActToken r)]
  | Intermediate _ => [(state_id, None, ActUnexpected)]
  end.

(** lexer/mod.rs 58-93: all arms, in order. *)
Fixpoint automaton_cases_from (d : dfa token_rule) (state_id : nat) (nodes : list (astate token_rule))
  : list lex_case :=
  match nodes with
  | [] => []
  | n :: rest => state_cases d state_id n ++ automaton_cases_from d (S state_id) rest
  end.
(** lexer/mod.rs 58-93, [automaton_cases]. *)
Definition automaton_cases (d : dfa token_rule) : list lex_case := automaton_cases_from d 0 (dfa_nodes d).

(** lexer/mod.rs 171-174: the Rust [match (state, symbol)]: first arm that fits. *)
Definition select_case (cases : list lex_case) (state symbol : nat) : option lex_action :=
  option_map snd (find (fun c => let '(s, t, _) := c in
    (s =? state) && match t with Some t => t =? symbol | None => true end) cases).

(** lexer/mod.rs 145-150 with the arms of 47-56, [get_alphabet_index]. *)
Definition get_alphabet_index (al : alphabet) (c : N) : option nat :=
  find_index (fun r => (fst r <=? c)%N && (c <=? snd r)%N) al.

(** lexer/mod.rs 152-157, [get_alphabet_range]. *)
Definition get_alphabet_range (al : alphabet) (i : nat) : option (N * N) := nth_error al i.

(** [char::len_utf8]. *)
Definition len_utf8 (c : N) : N :=
  if (c <? 128)%N then 1%N else if (c <? 2048)%N then 2%N else if (c <? 65536)%N then 3%N else 4%N.

(** lexer/mod.rs 71: the length of a text in bytes. *)
Definition byte_len (s : list N) : N := fold_right (fun c n => (len_utf8 c + n)%N) 0%N s.

(** lexer/mod.rs 127-132: [Lexer]; [char_iter] is the list of characters not yet consumed. *)
Record lexer : Type := mkLexer {
  lx_src : list N;
  lx_iter : list N;
  lx_start : N;
  lx_position : N
}.

(** lexer/mod.rs 135-143. *)
Definition lexer_new (src : list N) : lexer := mkLexer src src 0 0.

(** lexer/mod.rs 162-175: the loop of [next], recursive in the remaining characters.  Result: remaining
    characters, position, and the returned [Result]. *)
Fixpoint lexer_loop (al : alphabet) (cases : list lex_case) (iter : list N) (position : N) (state : nat)
  : res lex_err (list N * N * (token_type + lexer_error)) :=
  let next_ch := match iter with [] => 0%N | c :: _ => c end in
  match get_alphabet_index al next_ch with
  | None => Ok (iter, position, inr (InvalidChar next_ch))
  | Some symbol =>
    match select_case cases state symbol with
    | None => Panic
    | Some ActEof => Ok (iter, position, inl EndOfFile)
    | Some (ActToken r) => Ok (iter, position, inl (Tk r))
    | Some ActUnexpected =>
      match get_alphabet_range al symbol with
      | None => Panic
      | Some r => Ok (iter, position, inr (UnexpectedAlphabet r))
      end
    | Some (ActMove target) =>
      match iter with
      | [] => Panic
      | c :: iter' => lexer_loop al cases iter' (position + len_utf8 c)%N target
      end
    end
  end.

(** lexer/mod.rs 159-176, [Lexer::next]. *)
Definition lexer_next (al : alphabet) (d : dfa token_rule) (lx : lexer)
  : res lex_err (lexer * (token_type + lexer_error)) :=
  do (iter, position, r) <- lexer_loop al (automaton_cases d) (lx_iter lx) (lx_position lx) 0;
  Ok (mkLexer (lx_src lx) iter (lx_position lx) position, r).

(** lexer/mod.rs 178-180, [Lexer::span]. *)
Definition lexer_span (lx : lexer) : N * N := (lx_start lx, lx_position lx).

(** lexer/mod.rs 182-184: byte slicing of a string: panics unless both ends are character boundaries and in order. *)
Fixpoint drop_bytes (s : list N) (n : N) : res lex_err (list N) :=
  match s with
  | [] => if (n =? 0)%N then Ok [] else Panic
  | c :: s' => if (n =? 0)%N then Ok s
               else if (n <? len_utf8 c)%N then Panic else drop_bytes s' (n - len_utf8 c)
  end.
(** lexer/mod.rs 182-184: the beginning up to a byte offset. *)
Fixpoint take_bytes (s : list N) (n : N) : res lex_err (list N) :=
  match s with
  | [] => if (n =? 0)%N then Ok [] else Panic
  | c :: s' => if (n =? 0)%N then Ok []
               else if (n <? len_utf8 c)%N then Panic
               else do r <- take_bytes s' (n - len_utf8 c); Ok (c :: r)
  end.
(** lexer/mod.rs 182-184: [&self.src[a..b]]. *)
Definition byte_slice (s : list N) (a b : N) : res lex_err (list N) :=
  if (b <? a)%N then Panic else
  do t <- drop_bytes s a; take_bytes t (b - a).

(** lexer/mod.rs 182-184, [Lexer::slice]. *)
Definition lexer_slice (lx : lexer) : res lex_err (list N) :=
  byte_slice (lx_src lx) (lx_start lx) (lx_position lx).

(** lapex/src/lib.rs 142-149, [generate_lexer_and_parser]: the lexer part of the pipeline, from token rules to alphabet and DFA. *)
Definition generate_lexer (fuel : nat) (rules : list token_rule) : res lex_err (alphabet * dfa token_rule) :=
  do al <- generate_alphabet rules;
  do (start, g) <- generate_nfa al rules;
  do d <- powerset_construction fuel g start;
  do d' <- apply_precedence_to_dfa d;
  Ok (al, d').

(** lexer/mod.rs 159-184: [n] successive calls of [next] on one lexer, collecting results and slices. *)
Fixpoint lexer_run (al : alphabet) (d : dfa token_rule) (n : nat) (lx : lexer)
  : res lex_err (list (lexer * (token_type + lexer_error))) :=
  match n with
  | 0 => Ok []
  | S n' => do (lx', r) <- lexer_next al d lx;
            do rest <- lexer_run al d n' lx';
            Ok ((lx', r) :: rest)
  end.
