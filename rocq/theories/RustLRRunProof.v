(** Proofs about the functions of emitted Rust LR parsers: running them. *)
From Coq Require Import String Ascii List Arith NArith Bool Lia.
From Verif Require Import Base InputModel GrammarModel GrammarSpec GrammarBuildProof GrammarFactsProof LLModel LLSpec LRModel NamesModel NamesVisitProof RustTokenSpec RustQuoteModel RustSpec RustLexTextModel RustLexTextSpec RustLexTextProof RustLexRunProof RustLRTextModel RustPullModel RustLRTextSpec RustLRTextProof RustLRParseProof.
Import ListNotations.
Local Open Scope string_scope.
Local Open Scope list_scope.
Local Notation known := RustLRTextSpec.known.
Local Notation variant := RustLexTextSpec.variant.
Local Notation matches := RustSpec.matches.

Lemma same_two : forall x a b, same_path [x; a] [x; b] = String.eqb a b.
Proof. intros x a b. unfold same_path. destruct (list_eq_dec string_dec [x; a] [x; b]) as [E|N]; destruct (String.eqb_spec a b); congruence. Qed.
Lemma matches_path : forall x a b, matches (PPath [x; a]) (VCon [x; b] []) = Some (if String.eqb a b then Some [] else None).
Proof. intros x a b. cbn [matches]. rewrite same_two. reflexivity. Qed.
Lemma matches_field : forall x a f p v m, matches p v = Some m -> matches (PFields [x; a] [(f, p)]) (VCon [x; a] [(f, v)]) = Some m.
Proof. intros x a f p v m H. cbn [matches]. rewrite same_two, !String.eqb_refl, H. destruct m as [m|]; [rewrite app_nil_r|]; reflexivity. Qed.
Lemma matches_other : forall x a b ps fs, a <> b -> matches (PFields [x; a] ps) (VCon [x; b] fs) = Some None.
Proof. intros x a b ps fs H. cbn [matches]. rewrite same_two. destruct (String.eqb_spec a b); [contradiction|reflexivity]. Qed.
Lemma rule_same : forall a b, String.eqb (rule_variant a) (rule_variant b) = Nat.eqb a b.
Proof.
  intros a b. destruct (Nat.eqb_spec a b) as [->|D]; [apply String.eqb_refl|]. apply String.eqb_neq. unfold rule_variant. intros E. injection E as E. apply decimal_inj in E. lia.
Qed.

Lemma arms_run : forall O rounds q e l v st, eval_arms O rounds (ACons q e l) v st = match matches q v with Some (Some vars) => scoped vars st (eval O rounds e) | Some None => eval_arms O rounds l v st | None => None end.
Proof. reflexivity. Qed.
Lemma block_let_run : forall O rounds q ty e b st, eval_block O rounds (BLet q ty e b) st =
  then_value (eval O rounds e st) (fun st v => match typed ty v with Some v => match matches q v with Some (Some vars) => eval_block O rounds b (vars ++ st) | _ => None end | None => None end).
Proof. reflexivity. Qed.
Lemma block_stmt_run : forall O rounds e b st, eval_block O rounds (BStmt e b) st = then_value (eval O rounds e st) (fun st _ => eval_block O rounds b st). Proof. reflexivity. Qed.
Lemma match_run : forall O rounds e l st, eval O rounds (EMatch e l) st = then_value (eval O rounds e st) (fun st v => eval_arms O rounds l v st). Proof. reflexivity. Qed.

Lemma pop_method : forall O w, call_method O "pop" (VVec w) [] = match rev w with [] => Some (VVec w, [], Val VNone) | x :: r => Some (VVec (rev r), [], Val (VSome x)) end.
Proof. intros O w. unfold call_method. change (builtin "pop" (VVec w) []) with (match rev w with [] => Some (VVec w, Val VNone) | a :: r => Some (VVec (rev r), Val (VSome a)) end). destruct (rev w); reflexivity. Qed.
Lemma last_method : forall O w, call_method O "last" (VVec w) [] = Some (VVec w, [], Val (option_value (hd_error (rev w)))).
Proof. intros O w. unfold call_method. change (builtin "last" (VVec w) []) with (match rev w with [] => Some (VVec w, Val VNone) | a :: r => Some (VVec w, Val (VSome a)) end). destruct (rev w); reflexivity. Qed.

Section Running.
Variables (rs : rule_set) (g : grammar).
Hypothesis Hg : from_rule_set rs = Ok g.
Hypothesis U : usable_names g.
Variable p : lr_parser.
Hypothesis Fp : fits g p.

Lemma token_same : forall a b, known g a -> known g b -> String.eqb (token_variant g a) (token_variant g b) = eqc b a.
Proof.
  intros a b A B. destruct (eqc b a) eqn:E; [apply eqc_true in E; subst; apply String.eqb_refl|]. apply String.eqb_neq. intros X. apply (token_variant_inj rs g Hg U _ _ A B) in X. apply (proj1 (eqc_false _ _ _)) in E. congruence.
Qed.
Lemma non_terminal_same : forall a b, In (NonTerminal a) (non_terminals g) -> In (NonTerminal b) (non_terminals g) -> String.eqb (non_terminal_variant g (NonTerminal a)) (non_terminal_variant g (NonTerminal b)) = eqc a b.
Proof.
  intros a b A B. destruct (eqc a b) eqn:E; [apply eqc_true in E; subst; apply String.eqb_refl|]. apply String.eqb_neq. intros X. apply (non_terminal_variant_inj rs g Hg U _ _ A B) in X. apply (proj1 (eqc_false _ _ _)) in E. congruence.
Qed.

Section Plain.
Variables (call : list string -> list value -> option outcome) (method : string -> value -> list value -> option (value * list value * outcome)) (closure : value -> option (value * outcome)).
Variable rounds : nat.
Let O : outer := mkOuter parser_types call method closure.

Lemma expected_run : forall ex st k, eval_list O rounds (expected_exprs g ex) st k = k st (map (token_value g) ex).
Proof. induction ex as [|t ex IH]; intros st k; [reflexivity|]. refine (eq_trans (IH st (fun st vs => k st (token_value g t :: vs))) _). reflexivity. Qed.
Lemma unexpected_run : forall ex st v, look "next_token" st = Some v -> eval O rounds (unexpected_expr (expected_exprs g ex)) st = Some (st, Val (VErr (VCon ["ParserError"; "UnexpectedToken"] [("got", v); ("expected", VVec (map (token_value g) ex))]))).
Proof.
  intros ex st v L.
  assert (E : forall l, eval O rounds (unexpected_expr l) st =
    then_value (then_value (match look "next_token" st with Some v => Some (st, Val v) | None => None end) (fun st v => then_value (eval_list O rounds l st (fun st vs => Some (st, Val (VVec vs))))
      (fun st w => match fields_typed O ["ParserError"; "UnexpectedToken"] ["got"; "expected"] [v; w] with Some fs => Some (st, Val (VCon ["ParserError"; "UnexpectedToken"] fs)) | None => None end))) (fun st v => Some (st, Val (VErr v)))) by reflexivity.
  rewrite E, L. cbn [then_value]. rewrite expected_run. cbn [then_value].
  assert (T : forall a b, fields_typed O ["ParserError"; "UnexpectedToken"] ["got"; "expected"] [a; b] = Some [("got", a); ("expected", b)]) by reflexivity. rewrite T. reflexivity.
Qed.
Lemma action_matches : forall a state t, known g t -> match a with OnToken _ t' _ => known g t' | _ => True end ->
  matches (fst (action_ast g a)) (VTuple [usize_value (N.of_nat state); token_value g t]) =
  Some (if match a with OnToken s t' _ => (Nat.eqb state s && eqc t t')%bool | OnOther s _ => Nat.eqb state s end then Some [] else None).
Proof.
  intros a state t K Ka. destruct a as [s t' b|s ex].
  - assert (E : fst (action_ast g (OnToken s t' b)) = PTuple [PLit (N.of_nat s) "usize"; PPath ["TokenType"; token_variant g t']]) by (destruct b; reflexivity). rewrite E.
    refine (eq_trans (pair_matches _ _ _ _ _ _ (matches_lit (N.of_nat s) "usize" (N.of_nat state) "usize" "usize" eq_refl) (matches_path "TokenType" (token_variant g t') (token_variant g t))) _).
    rewrite usize_same, (token_same t' t Ka K), Nat.eqb_sym. destruct (Nat.eqb state s), (eqc t t'); reflexivity.
  - cbn [action_ast fst]. refine (eq_trans (pair_matches (PLit (N.of_nat s) "usize") PWild _ (token_value g t) _ (Some []) (matches_lit (N.of_nat s) "usize" (N.of_nat state) "usize" "usize" eq_refl) eq_refl) _).
    rewrite usize_same, Nat.eqb_sym. destruct (Nat.eqb state s); reflexivity.
Qed.
Definition action_outcome (state : nat) (t : token) (l : list action_arm) : outcome := match next_action l state t with Ok a => Val (VOk (action_value a)) | Err e => Val (VErr (parser_error_value g e)) | _ => Panics end.
Lemma actions_run : forall state t st, known g t -> look "next_token" st = Some (token_value g t) ->
  eval_arms O rounds (actions_ast g p) (VTuple [usize_value (N.of_nat state); token_value g t]) st = Some (st, action_outcome state t (lp_actions p)).
Proof.
  intros state t st K L. pose proof (ft_on g p Fp) as A. unfold actions_ast. revert A. induction (lp_actions p) as [|a l IH]; intros A.
  - cbn [map arms_before]. rewrite arms_run. change (scoped [] st (fun st => Some (st, Panics)) = Some (st, Panics)). apply scoped_none. reflexivity.
  - cbn [map arms_before]. destruct (action_ast g a) as (q, e) eqn:E. rewrite arms_run. pose proof (action_matches a state t K) as M. rewrite E in M. cbn [fst] in M. rewrite M; [|destruct a as [s t' b|]; [exact (proj1 (A _ _ _ (or_introl eq_refl)))|exact I]].
    specialize (IH (fun s t' b H => A s t' b (or_intror H))). unfold action_outcome in *. destruct a as [s t' b|s ex]; cbn [next_action].
    + destruct ((state =? s)%nat && eqc t t')%bool; [|exact IH]. apply scoped_none. destruct b; inversion E; subst; reflexivity.
    + destruct (state =? s)%nat; [|exact IH]. apply scoped_none. inversion E; subst. apply (unexpected_run ex st (token_value g t) L).
Qed.
Lemma goto_matches : forall s x go state k, known_symbol g k -> In ((s, x), go) (lp_gotos p) ->
  matches (fst (goto_ast g ((s, x), go))) (VTuple [usize_value (N.of_nat state); symbol_value g k]) =
  Some (if (Nat.eqb state s && match x, k with Terminal t, KTerminal t' => eqc (Some t) t' | NonTerminal i, KNonTerminal i' => eqc i i' | _, _ => false end)%bool then Some [] else None).
Proof.
  intros s x go state k K I. destruct (ft_gotos g p Fp _ _ _ I) as (J & T). cbn [goto_ast fst].
  assert (M : matches (symbol_pat g x) (symbol_value g k) = Some (if match x, k with Terminal t, KTerminal t' => eqc (Some t) t' | NonTerminal i, KNonTerminal i' => eqc i i' | _, _ => false end then Some [] else None)).
  { pose proof (grammar_wf rs g Hg) as wf. destruct x as [| |i|t]; try contradiction.
    - assert (Ki : In (NonTerminal i) (non_terminals g)). { apply in_app_or in J. destruct J as [J|J]; [|exact J]. destruct (wf_ts g wf _ J) as (j & X). discriminate. }
      destruct k as [t'|i'|q]; cbn [symbol_pat symbol_value]; [apply matches_other; discriminate| |apply matches_other; discriminate].
      apply matches_field. rewrite matches_path, (non_terminal_same _ _ Ki K). reflexivity.
    - assert (Kt : known g (Some t)). { apply in_app_or in J. destruct J as [J|J]; [exact J|]. destruct (wf_nts g wf _ J) as (j & X). discriminate. }
      destruct k as [t'|i'|q]; cbn [symbol_pat symbol_value]; [|apply matches_other; discriminate|apply matches_other; discriminate].
      apply matches_field. unfold token_value, RustLexTextSpec.variant. rewrite matches_path, (token_same _ _ Kt K). f_equal. destruct (eqc t' (Some t)) eqn:E; [apply eqc_true in E; subst; rewrite eqc_refl; reflexivity|].
      apply (proj1 (eqc_false _ _ _)) in E. replace (eqc (Some t) t') with false; [reflexivity|]. symmetry. apply eqc_false. congruence. }
  refine (eq_trans (pair_matches _ _ _ _ _ _ (matches_lit (N.of_nat s) "usize" (N.of_nat state) "usize" "usize" eq_refl) M) _). rewrite usize_same, Nat.eqb_sym. destruct (Nat.eqb state s); [|reflexivity]. cbn [andb].
  destruct (match x, k with Terminal t, KTerminal t' => eqc (Some t) t' | NonTerminal i, KNonTerminal i' => eqc i i' | _, _ => false end); reflexivity.
Qed.
Definition goto_outcome (state : nat) (k : stack_symbol) (l : list ((nat * symbol) * lr_goto)) : outcome := match next_goto l state k with Ok go => Val (goto_value go) | _ => Panics end.
Lemma gotos_run : forall state k st, known_symbol g k -> eval_arms O rounds (gotos_ast g p) (VTuple [usize_value (N.of_nat state); symbol_value g k]) st = Some (st, goto_outcome state k (lp_gotos p)).
Proof.
  intros state k st K. assert (A : forall s x go, In ((s, x), go) (lp_gotos p) -> In ((s, x), go) (lp_gotos p)) by auto. unfold gotos_ast, goto_outcome. revert A. generalize (lp_gotos p) at 1 3 4. induction l as [|((s, x), go) l IH]; intros A.
  - cbn [map arms_before]. rewrite arms_run. change (scoped [] st (fun st => Some (st, Panics)) = Some (st, Panics)). apply scoped_none. reflexivity.
  - cbn [map arms_before]. destruct (goto_ast g ((s, x), go)) as (q, e) eqn:E. rewrite arms_run. pose proof (goto_matches s x go state k K (A _ _ _ (or_introl eq_refl))) as M. rewrite E in M. cbn [fst] in M. rewrite M. cbn [next_goto].
    destruct ((state =? s)%nat && _)%bool; [|exact (IH (fun s x go H => A s x go (or_intror H)))]. apply scoped_none. destruct go; inversion E; subst; reflexivity.
Qed.
Lemma run_action : forall self state t, known g t -> run_function O rounds (f_action (the_parser g p)) [self; usize_value (N.of_nat state); token_value g t] = Some ([self; usize_value (N.of_nat state); token_value g t], action_outcome state t (lp_actions p)).
Proof.
  intros self state t K. unfold run_function. cbn [the_parser f_action List.length fn_parameters Nat.eqb map fst combine fn_body].
  set (st := [("self", self); ("state", usize_value (N.of_nat state)); ("next_token", token_value g t)]).
  assert (E : forall l, eval_block O rounds (BTail (EMatch (ETuple (XCons (EPath ["state"]) (XCons (EPath ["next_token"]) XNil))) l)) st = eval_arms O rounds l (VTuple [usize_value (N.of_nat state); token_value g t]) st) by reflexivity.
  rewrite (scoped_none st _ (action_outcome state t (lp_actions p))); [unfold action_outcome; destruct (next_action (lp_actions p) state t) as [a|e| |]; reflexivity|]. rewrite E. apply actions_run; [exact K|reflexivity].
Qed.
Lemma run_goto : forall self state k, known_symbol g k -> run_function O rounds (f_goto (the_parser g p)) [self; usize_value (N.of_nat state); symbol_value g k] = Some ([self; usize_value (N.of_nat state); symbol_value g k], goto_outcome state k (lp_gotos p)).
Proof.
  intros self state k K. unfold run_function. cbn [the_parser f_goto List.length fn_parameters Nat.eqb map fst combine fn_body].
  set (st := [("self", self); ("state", usize_value (N.of_nat state)); ("symbol", symbol_value g k)]).
  assert (E : forall l, eval_block O rounds (BTail (EMatch (ETuple (XCons (EPath ["state"]) (XCons (EPath ["symbol"]) XNil))) l)) st = eval_arms O rounds l (VTuple [usize_value (N.of_nat state); symbol_value g k]) st) by reflexivity.
  rewrite (scoped_none st _ (goto_outcome state k (lp_gotos p))); [unfold goto_outcome; destruct (next_goto (lp_gotos p) state k) as [a|e| |]; reflexivity|]. rewrite E. apply gotos_run. exact K.
Qed.
End Plain.

(** ** Reducing *)

Lemma find_some_in : forall {A} f (l : list A) x, find f l = Some x -> In x l. Proof. intros A f l x H. exact (proj1 (find_some f l H)). Qed.
Lemma rule_method_in : forall k, (k < List.length (g_rules g))%nat -> In (k, rule_method (all_visits true g) k) (all_visits true g).
Proof.
  intros k H. apply (visits_cover rs g Hg) in H. unfold rule_method. destruct (find (fun e => Nat.eqb (fst e) k) (all_visits true g)) as [(k', m)|] eqn:E.
  - destruct (find_some _ _ E) as (I & X). cbn [fst] in X. apply Nat.eqb_eq in X. subst. exact I.
  - apply in_map_iff in H. destruct H as ((k', m) & X & I). cbn [fst] in X. subst. pose proof (find_none _ _ E _ I) as Y. cbn [fst] in Y. rewrite Nat.eqb_refl in Y. discriminate.
Qed.
Section Reduce.
Variable visit : visits_type.
Variable rounds : nat.
Let O : outer := visitor_outer visit.

Lemma reductions_run : forall rule n i st, nth_error (lp_reductions p) rule = Some (n, NonTerminal i) -> eval_arms O rounds (reductions_ast g p) (rule_value rule) st = Some (st, Val (VTuple [usize_value (N.of_nat n); symbol_value g (KNonTerminal i)])).
Proof.
  intros rule n i st H. unfold reductions_ast, enumerate. assert (G : forall l k j, nth_error l j = Some (n, NonTerminal i) -> eval_arms O rounds (arms_before (map (reduction_ast g) (enumerate_from k l)) ANil) (rule_value (k + j)) st = Some (st, Val (VTuple [usize_value (N.of_nat n); symbol_value g (KNonTerminal i)]))).
  2: { apply (G _ 0%nat). exact H. }
  induction l as [|(m, x) l IH]; intros k j E; [destruct j; discriminate|]. cbn [enumerate_from map arms_before reduction_ast]. rewrite arms_run. unfold rule_value at 1. rewrite matches_path, rule_same. destruct j as [|j].
  - rewrite Nat.add_0_r, Nat.eqb_refl. apply scoped_none. cbn in E. inversion E. subst. reflexivity.
  - destruct (Nat.eqb_spec k (k + S j)) as [X|_]; [lia|]. cbn in E. replace (k + S j)%nat with (S k + j)%nat by lia. apply IH. exact E.
Qed.
Lemma visits_run : forall rule st l, In rule (map fst l) -> eval_arms O rounds (arms_before (map visit_ast l) ANil) (rule_value rule) st = scoped [] st (eval O rounds (EMethod (EField (EPath ["self"]) "visitor") (rule_method l rule) XNil)).
Proof.
  intros rule st l. unfold rule_method. induction l as [|(k, m) l IH]; intros H; [destruct H|]. cbn [map arms_before visit_ast fst snd find]. unfold visit_ast at 1. cbn [fst snd]. rewrite arms_run. unfold rule_value at 1. rewrite matches_path, rule_same.
  destruct (Nat.eqb_spec k rule) as [->|D]; [reflexivity|]. destruct H as [H|H]; [cbn in H; contradiction|]. exact (IH H).
Qed.
Definition reduce_store (a b c d w : value) : store := [("to_pop", a); ("reduced", b); ("self", c); ("rule", d); ("stack", w)].
Lemma pop_run : forall a b c d w, eval O rounds pop_unwrap (reduce_store a b c d (VVec w)) = match rev w with [] => Some (reduce_store a b c d (VVec w), Panics) | x :: r => Some (reduce_store a b c d (VVec (rev r)), Val x) end.
Proof.
  intros a b c d w. assert (E : forall v, eval O rounds pop_unwrap (reduce_store a b c d v) = then_value (match call_method O "pop" v [] with Some (v, vs, o) => match write_back XNil vs (reduce_store a b c d v) with Some st => Some (st, o) | None => None end | None => None end)
    (fun st v => match call_method O "unwrap" v [] with Some (_, vs, o) => match write_back XNil vs st with Some st => Some (st, o) | None => None end | None => None end)) by reflexivity.
  rewrite E, pop_method. destruct (rev w); reflexivity.
Qed.
Lemma pop_stack : forall a b c d k l, eval O rounds pop_unwrap (reduce_store a b c d (stack_value g (k :: l))) = Some (reduce_store a b c d (stack_value g l), Val (symbol_value g k)).
Proof. intros a b c d k l. unfold stack_value at 1. rewrite pop_run, rev_involutive. reflexivity. Qed.
Lemma pop_empty : forall a b c d, eval O rounds pop_unwrap (reduce_store a b c d (stack_value g [])) = Some (reduce_store a b c d (stack_value g []), Panics).
Proof. reflexivity. Qed.
Definition pops (st : store) : option (store * outcome) := scoped [] st (eval_block O rounds (BStmt pop_unwrap (BStmt pop_unwrap BNil))).
Lemma pops_run : forall a b c d n from l, match pop_pairs n l with
  | Ok l' => for_body n from "usize" (fun _ => pops) (reduce_store a b c d (stack_value g l)) = Some (reduce_store a b c d (stack_value g l'), Val VUnit)
  | _ => exists w, for_body n from "usize" (fun _ => pops) (reduce_store a b c d (stack_value g l)) = Some (reduce_store a b c d w, Panics) end.
Proof.
  intros a b c d n. induction n as [|n IH]; intros from l; [reflexivity|]. cbn [pop_pairs for_body].
  assert (P : forall st, pops st = match then_value (eval O rounds pop_unwrap st) (fun st _ => then_value (eval O rounds pop_unwrap st) (fun st _ => Some (st, Val VUnit))) with Some (st', o) => Some (leave st st', o) | None => None end) by reflexivity.
  destruct l as [|k l].
  - exists (stack_value g []). rewrite P, pop_empty. reflexivity.
  - rewrite P, pop_stack. cbn [then_value]. destruct l as [|k' l].
    + exists (stack_value g []). rewrite pop_empty. reflexivity.
    + rewrite pop_stack. cbn [then_value]. change (leave (reduce_store a b c d (stack_value g (k :: k' :: l))) (reduce_store a b c d (stack_value g l))) with (reduce_store a b c d (stack_value g l)). exact (IH (from + 1)%N l).
Qed.
Lemma pop_loop_run : forall n b c d w, eval O rounds pop_loop (reduce_store (usize_value (N.of_nat n)) b c d w) = for_body n 0 "usize" (fun _ => pops) (reduce_store (usize_value (N.of_nat n)) b c d w).
Proof.
  intros n b c d w. transitivity (for_body (N.to_nat (N.of_nat n - 0)) 0 "usize" (fun _ => pops) (reduce_store (usize_value (N.of_nat n)) b c d w)); [reflexivity|]. rewrite N.sub_0_r, Nnat.Nat2N.id. reflexivity.
Qed.
Lemma visit_call_run : forall a b source v d w m, (exists x, m = ("reduce_" ++ x)%string) -> eval O rounds (EMethod (EField (EPath ["self"]) "visitor") m XNil) (reduce_store a b (parser_value source v) d w) = Some (reduce_store a b (parser_value source (visit v m [])) d w, Val VUnit).
Proof. intros a b source v d w m (x & ->). reflexivity. Qed.
Lemma run_reduce : forall source v rule stack, (rule < List.length (g_rules g))%nat ->
    match reduce_stack p rule stack with
    | Ok stack' => run_function O rounds (f_reduce (the_parser g p)) [parser_value source v; rule_value rule; stack_value g stack] =
        Some ([parser_value source (visit v (rule_method (all_visits true g) rule) []); rule_value rule; stack_value g stack'], Val VUnit)
    | _ => exists l, run_function O rounds (f_reduce (the_parser g p)) [parser_value source v; rule_value rule; stack_value g stack] = Some ([parser_value source v; rule_value rule; l], Panics)
    end.
Proof.
  intros source v rule stack L. unfold reduce_stack. destruct (nth_error (lp_reductions p) rule) as [(n, x)|] eqn:E; [|apply nth_error_None in E; rewrite (ft_reductions g p Fp) in E; lia].
  destruct (ft_symbols g p Fp n x (nth_error_In _ _ E)) as (i & -> & _). unfold run_function. cbn [the_parser f_reduce List.length fn_parameters Nat.eqb map fst combine fn_body].
  set (st := [("self", parser_value source v); ("rule", rule_value rule); ("stack", stack_value g stack)]).
  assert (B : eval_block O rounds (reduce_body (reductions_ast g p) (visits_ast g)) st = then_value (eval O rounds pop_loop (reduce_store (usize_value (N.of_nat n)) (symbol_value g (KNonTerminal i)) (parser_value source v) (rule_value rule) (stack_value g stack)))
    (fun st _ => eval_block O rounds (BStmt push_reduced (BTail (EMatch (EPath ["rule"]) (visits_ast g)))) st)).
  { unfold reduce_body. rewrite block_let_run. rewrite match_run. change (eval O rounds (EPath ["rule"]) st) with (Some (st, Val (rule_value rule))). cbn [then_value]. rewrite (reductions_run rule n i st E). reflexivity. }
  unfold scoped. cbn [app]. rewrite B, pop_loop_run. pose proof (pops_run (usize_value (N.of_nat n)) (symbol_value g (KNonTerminal i)) (parser_value source v) (rule_value rule) n 0%N stack) as P.
  destruct (pop_pairs n stack) as [stack'|e| |]; cbn [bind].
  - rewrite P. cbn [then_value]. rewrite block_stmt_run.
    change (eval O rounds push_reduced (reduce_store (usize_value (N.of_nat n)) (symbol_value g (KNonTerminal i)) (parser_value source v) (rule_value rule) (stack_value g stack')))
      with (Some (reduce_store (usize_value (N.of_nat n)) (symbol_value g (KNonTerminal i)) (parser_value source v) (rule_value rule) (stack_value g (KNonTerminal i :: stack')), Val VUnit)). cbn [then_value].
    set (st2 := reduce_store _ _ _ _ _). change (eval_block O rounds (BTail (EMatch (EPath ["rule"]) (visits_ast g))) st2) with (eval_arms O rounds (visits_ast g) (rule_value rule) st2).
    unfold visits_ast. rewrite (visits_run rule st2 (all_visits true g)) by (apply (visits_cover rs g Hg), L). pose proof (rule_method_in rule L) as I. destruct (method_named rs g Hg U rule _ I) as (y & Y & _).
    unfold scoped. cbn [app]. unfold st2. rewrite (visit_call_run _ _ _ _ _ _ _ (ex_intro _ y Y)). reflexivity.
  - destruct P as (w & ->). exists w. reflexivity.
  - destruct P as (w & ->). exists w. reflexivity.
  - destruct P as (w & ->). exists w. reflexivity.
Qed.
End Reduce.

(** ** Parsing *)

Lemma leave_vars : forall st vars st', List.length st = List.length st' -> leave st (vars ++ st') = st'.
Proof. intros st vars st' H. unfold leave. rewrite app_length, <- H, Nat.add_sub. rewrite skipn_app, skipn_all, Nat.sub_diag. reflexivity. Qed.
Lemma next_action_fuel : forall l s t, next_action l s t <> OutOfFuel.
Proof. induction l as [|[s' t' a|s' ex] l IH]; intros s t; cbn [next_action]; [discriminate| |]; destruct (_ : bool); try discriminate; apply IH. Qed.
Lemma next_goto_ends : forall l s k, (exists go, next_goto l s k = Ok go) \/ next_goto l s k = Panic.
Proof. induction l as [|((s', x), go) l IH]; intros s k; cbn [next_goto]; [right; reflexivity|]. destruct (_ : bool); [left; eauto|apply IH]. Qed.
Lemma pop_pairs_ends : forall n l, (exists l', pop_pairs n l = Ok l' /\ incl l' l) \/ pop_pairs n l = Panic.
Proof.
  induction n as [|n IH]; intros l; [left; exists l; split; [reflexivity|apply incl_refl]|]. cbn [pop_pairs]. destruct l as [|a [|b l]]; try (right; reflexivity). destruct (IH l) as [(l' & E & I)|E]; [left; exists l'; split; [exact E|]|right; exact E].
  intros x X. right. right. apply I. exact X.
Qed.
Lemma reduce_ends : forall rule l, Forall (known_symbol g) l -> (exists l', reduce_stack p rule l = Ok l' /\ Forall (known_symbol g) l') \/ reduce_stack p rule l = Panic.
Proof.
  intros rule l K. unfold reduce_stack. destruct (nth_error (lp_reductions p) rule) as [(n, x)|] eqn:E; [|right; reflexivity]. destruct (ft_symbols g p Fp n x (nth_error_In _ _ E)) as (i & -> & I).
  destruct (pop_pairs_ends n l) as [(l' & -> & J)| ->]; [left|right; reflexivity]. cbn [bind]. eexists. split; [reflexivity|]. constructor; [exact I|]. rewrite Forall_forall in *. auto.
Qed.
Lemma goto_step_ends : forall l, Forall (known_symbol g) l -> (exists l', lr_goto_step p l = Ok l' /\ Forall (known_symbol g) l') \/ lr_goto_step p l = Panic.
Proof.
  intros l K. unfold lr_goto_step. destruct l as [|k [|[| |s] l]]; try (right; reflexivity). destruct (next_goto_ends (lp_gotos p) s k) as [(go & ->)| ->]; [left|right; reflexivity]. cbn [bind].
  destruct go; eexists; (split; [reflexivity|]); [inversion K as [|? ? _ K']; inversion K'; assumption|constructor; [exact I|exact K]].
Qed.
Lemma reduce_known : forall s t k, next_action (lp_actions p) s t = Ok (ActReduce k) -> (k < List.length (g_rules g))%nat.
Proof.
  intros s t k H. assert (X : exists s' t', In (OnToken s' t' (ActReduce k)) (lp_actions p)).
  { revert H. induction (lp_actions p) as [|[s' t' a|s' ex] l IH]; cbn [next_action]; intros H; [discriminate| |].
    - destruct (_ : bool) in H; [inversion H; subst; exists s', t'; left; reflexivity|]. destruct (IH H) as (u & w & I). exists u, w. right. exact I.
    - destruct (_ : bool) in H; [discriminate|]. destruct (IH H) as (u & w & I). exists u, w. right. exact I. }
  destruct X as (s' & t' & I). exact (proj2 (ft_on g p Fp _ _ _ I) k eq_refl).
Qed.

Definition the_method (visit : visits_type) (method : string -> value -> list value -> option (value * list value * outcome)) (m : string) (v : value) (args : list value) : option (value * list value * outcome) :=
  match v with VCon ["Parser"] _ => method m v args | _ => visiting visit m v args end.
Section Parsing.
Variable visit : visits_type.
Variable method : string -> value -> list value -> option (value * list value * outcome).
Variable closure : value -> option (value * outcome).
Variable rounds : nat.
Let O : outer := mkOuter parser_types (fun _ _ => None) (the_method visit method) closure.
Hypothesis Hact : forall source v state t, known g t -> method "next_action" (parser_value source v) [usize_value (N.of_nat state); token_value g t] =
  Some (parser_value source v, [usize_value (N.of_nat state); token_value g t], action_outcome state t (lp_actions p)).
Hypothesis Hgoto : forall source v state k, known_symbol g k -> method "next_goto" (parser_value source v) [usize_value (N.of_nat state); symbol_value g k] =
  Some (parser_value source v, [usize_value (N.of_nat state); symbol_value g k], goto_outcome state k (lp_gotos p)).
Hypothesis Hreduce : forall source v rule stack, (rule < List.length (g_rules g))%nat ->
    match reduce_stack p rule stack with
    | Ok stack' => method "reduce_stack_and_visit" (parser_value source v) [rule_value rule; stack_value g stack] =
        Some (parser_value source (visit v (rule_method (all_visits true g) rule) []), [rule_value rule; stack_value g stack'], Val VUnit)
    | _ => exists l, method "reduce_stack_and_visit" (parser_value source v) [rule_value rule; stack_value g stack] = Some (parser_value source v, [rule_value rule; l], Panics)
    end.

Definition loop_store (ws wl self : value) : store := [("stack", ws); ("lookahead", wl); ("self", self)].
Definition act_store (a q x ws wl self : value) : store := ("action", a) :: ("state", q) :: ("next_token", x) :: loop_store ws wl self.
Lemma state_arms_run : forall k st, eval_arms O rounds state_arms (symbol_value g k) st = Some (st, match k with KState s => Val (usize_value (N.of_nat s)) | _ => Panics end).
Proof.
  intros k st. unfold state_arms. rewrite arms_run. destruct k as [t|i|s]; cbn [symbol_value].
  - rewrite matches_other by discriminate. rewrite arms_run. apply scoped_none. reflexivity.
  - rewrite matches_other by discriminate. rewrite arms_run. apply scoped_none. reflexivity.
  - rewrite (matches_field "StackSymbol" "State" "state_id" (PBind "state_id") (usize_value (N.of_nat s)) (Some [("state_id", usize_value (N.of_nat s))]) eq_refl). unfold scoped.
    change (eval O rounds (EDeref (EPath ["state_id"])) ([("state_id", usize_value (N.of_nat s))] ++ st)) with (Some ([("state_id", usize_value (N.of_nat s))] ++ st, Val (usize_value (N.of_nat s)))). cbv beta iota. rewrite leave_vars by reflexivity. reflexivity.
Qed.
(** Stores in which the stack can be changed. *)
Definition has_stack (F : value -> store) : Prop := forall w, read_place (F w) ("stack", []) = Some w /\ forall w', write_place (F w) ("stack", []) w' = Some (F w').
Lemma last_run : forall F l, has_stack F -> eval O rounds (method0 (method0 (EPath ["stack"]) "last") "unwrap") (F (stack_value g l)) = Some (F (stack_value g l), match l with k :: _ => Val (symbol_value g k) | [] => Panics end).
Proof.
  intros F l H.
  assert (E : forall st, eval O rounds (method0 (method0 (EPath ["stack"]) "last") "unwrap") st = then_value (get v <- read_place st ("stack", []); match call_method O "last" v [] with Some (v, vs, o) =>
      get st <- write_place st ("stack", []) v; get st <- write_back XNil vs st; Some (st, o) | None => None end)
    (fun st v => match call_method O "unwrap" v [] with Some (_, vs, o) => get st <- write_back XNil vs st; Some (st, o) | None => None end)) by reflexivity.
  rewrite E, (proj1 (H _)). unfold stack_value at 1. rewrite last_method, rev_involutive. fold (stack_value g l). rewrite (proj2 (H _)). destruct l as [|k l]; reflexivity.
Qed.
Lemma pop_stack_run : forall F k l, has_stack F -> eval O rounds (method0 (EPath ["stack"]) "pop") (F (stack_value g (k :: l))) = Some (F (stack_value g l), Val (VSome (symbol_value g k))).
Proof.
  intros F k l H.
  assert (E : forall st, eval O rounds (method0 (EPath ["stack"]) "pop") st = get v <- read_place st ("stack", []); match call_method O "pop" v [] with Some (v, vs, o) =>
      get st <- write_place st ("stack", []) v; get st <- write_back XNil vs st; Some (st, o) | None => None end) by reflexivity.
  rewrite E, (proj1 (H _)). unfold stack_value at 1. rewrite pop_method, rev_involutive. cbn [map]. fold (stack_value g l). rewrite (proj2 (H _)). reflexivity.
Qed.
Lemma index_run : forall F l, has_stack F -> eval O rounds (ERef false (EIndex (EPath ["stack"]) (EMinus (method0 (EPath ["stack"]) "len") (EInt 2 "")))) (F (stack_value g l)) =
  Some (F (stack_value g l), match l with _ :: k :: _ => Val (symbol_value g k) | _ => Panics end).
Proof.
  intros F l H. set (w := rev (map (symbol_value g) l)). change (stack_value g l) with (VVec w).
  assert (R : forall st v, read_place st ("stack", []) = Some v -> look "stack" st = Some v) by (unfold read_place; cbn [fst snd]; intros st v; destruct (look "stack" st); intros X; [exact X|discriminate]).
  assert (E : forall st, look "stack" st = Some (VVec w) -> write_place st ("stack", []) (VVec w) = Some st -> eval O rounds (ERef false (EIndex (EPath ["stack"]) (EMinus (method0 (EPath ["stack"]) "len") (EInt 2 "")))) st =
    then_value (Some (st, if (N.of_nat (List.length w) <? 2)%N then Panics else Val (VInt (N.of_nat (List.length w) - 2) "usize")))
      (fun st i => match i with VInt n _ => match nth_error w (N.to_nat n) with Some a => Some (st, Val a) | None => Some (st, Panics) end | _ => None end)).
  { intros st A B.
    assert (E1 : eval O rounds (ERef false (EIndex (EPath ["stack"]) (EMinus (method0 (EPath ["stack"]) "len") (EInt 2 "")))) st =
      then_value (eval O rounds (EPath ["stack"]) st) (fun st v => then_value (then_value (get v <- read_place st ("stack", []); match call_method O "len" v [] with Some (v, vs, o) => get st <- write_place st ("stack", []) v; get st <- write_back XNil vs st; Some (st, o) | None => None end)
        (fun st v => match v with VInt n t => get t <- join t ""; Some (st, if (n <? 2)%N then Panics else Val (VInt (n - 2) t)) | _ => None end)) (fun st w =>
      match v, w with
      | VVec l, VInt n _ => match nth_error l (N.to_nat n) with Some a => Some (st, Val a) | None => Some (st, Panics) end
      | VVec l, VCon ["Range"] [(_, VInt a _); (_, VInt b _)] => get l <- characters l; match slice_bytes l a b with Some w => Some (st, Val (VVec (map VChar w))) | None => Some (st, Panics) end
      | _, _ => None
      end))) by reflexivity.
    rewrite E1. assert (E2 : eval O rounds (EPath ["stack"]) st = Some (st, Val (VVec w))) by (change (eval O rounds (EPath ["stack"]) st) with (match look "stack" st with Some v => Some (st, Val v) | None => None end); rewrite A; reflexivity).
    rewrite E2. cbn [then_value]. unfold read_place. cbn [fst snd]. rewrite A. cbn [read]. change (call_method O "len" (VVec w) []) with (Some (VVec w, @nil value, Val (VInt (N.of_nat (List.length w)) "usize"))). cbv beta iota. rewrite B.
    cbn [write_back]. cbn [then_value]. change (join "usize" "") with (Some "usize"). cbv iota. destruct (N.of_nat (List.length w) <? 2)%N; reflexivity. }
  rewrite (E _ (R _ _ (proj1 (H _))) (proj2 (H _) _)). unfold w. rewrite rev_length, map_length. destruct l as [|k [|k' l]]; [reflexivity|reflexivity|]. cbn [List.length].
  destruct (N.ltb_spec (N.of_nat (S (S (List.length l)))) 2); [lia|]. cbn [then_value]. replace (N.to_nat (N.of_nat (S (S (List.length l))) - 2)) with (List.length (rev (map (symbol_value g) l))) by (rewrite rev_length, map_length; lia).
  cbn [map rev]. rewrite <- app_assoc, nth_error_app2, Nat.sub_diag by apply le_n. reflexivity.
Qed.
Lemma act_has_stack : forall a q x wl self, has_stack (fun ws => act_store a q x ws wl self). Proof. intros a q x wl self w. split; reflexivity. Qed.
Lemma cur_has_stack : forall c a q x wl self, has_stack (fun ws => ("current_symbol", c) :: act_store a q x ws wl self). Proof. intros c a q x wl self w. split; reflexivity. Qed.
Lemma next_has_stack : forall x wl self, has_stack (fun ws => ("next_token", x) :: loop_store ws wl self). Proof. intros x wl self w. split; reflexivity. Qed.

(** The action. *)
Lemma start_run : forall k l x y self, eval_block O rounds loop_body (loop_store (stack_value g (k :: l)) (VVec [VTuple [x; y]]) self) =
  match k with
  | KState s => eval_block O rounds (BLet (PBind "action") None (ETry (EMethod (EPath ["self"]) "next_action" (XCons (EPath ["state"]) (XCons (EDeref (EPath ["next_token"])) XNil)))) (BStmt act_match goto_part))
      (("state", usize_value (N.of_nat s)) :: ("next_token", x) :: loop_store (stack_value g (k :: l)) (VVec [VTuple [x; y]]) self)
  | _ => Some (("next_token", x) :: loop_store (stack_value g (k :: l)) (VVec [VTuple [x; y]]) self, Panics)
  end.
Proof.
  intros k l x y self. unfold loop_body. rewrite block_let_run.
  assert (E : forall ws v, eval O rounds (method0 (method0 (EPath ["lookahead"]) "front") "unwrap") (loop_store ws (VVec [v]) self) = Some (loop_store ws (VVec [v]) self, Val v)) by reflexivity.
  rewrite E. cbn [then_value typed]. change (matches (PTuple [PBind "next_token"; PWild]) (VTuple [x; y])) with (Some (Some [("next_token", x)])). cbv iota. cbn [app].
  rewrite block_let_run, match_run, (last_run (fun ws => ("next_token", x) :: loop_store ws (VVec [VTuple [x; y]]) self) (k :: l) (next_has_stack _ _ _)). cbn [then_value]. rewrite state_arms_run. destruct k; reflexivity.
Qed.
Lemma ask_run : forall s t l wl source v b, known g t ->
  eval_block O rounds (BLet (PBind "action") None (ETry (EMethod (EPath ["self"]) "next_action" (XCons (EPath ["state"]) (XCons (EDeref (EPath ["next_token"])) XNil)))) b)
      (("state", usize_value (N.of_nat s)) :: ("next_token", token_value g t) :: loop_store (stack_value g l) wl (parser_value source v)) =
  match next_action (lp_actions p) s t with
  | Ok a => eval_block O rounds b (act_store (action_value a) (usize_value (N.of_nat s)) (token_value g t) (stack_value g l) wl (parser_value source v))
  | Err e => Some (("state", usize_value (N.of_nat s)) :: ("next_token", token_value g t) :: loop_store (stack_value g l) wl (parser_value source v), Ret (VErr (parser_error_value g e)))
  | _ => Some (("state", usize_value (N.of_nat s)) :: ("next_token", token_value g t) :: loop_store (stack_value g l) wl (parser_value source v), Panics)
  end.
Proof.
  intros s t l wl source v b K. rewrite block_let_run. set (st := ("state", _) :: _).
  assert (E : eval O rounds (ETry (EMethod (EPath ["self"]) "next_action" (XCons (EPath ["state"]) (XCons (EDeref (EPath ["next_token"])) XNil)))) st =
    then_value (match method "next_action" (parser_value source v) [usize_value (N.of_nat s); token_value g t] with
      | Some (v, vs, o) => get st <- write_place st ("self", []) v; get st <- write_back (XCons (EPath ["state"]) (XCons (EDeref (EPath ["next_token"])) XNil)) vs st; Some (st, o) | None => None end)
     (fun st v => match v with VCon ["Ok"] [(_, a)] => Some (st, Val a) | VCon ["Err"] [(_, a)] => Some (st, Ret (VErr a)) | _ => None end)) by reflexivity.
  rewrite E, (Hact source v s t K). cbv iota. change (write_place st ("self", []) (parser_value source v)) with (Some st). cbn [write_back]. cbv iota. unfold action_outcome. destruct (next_action (lp_actions p) s t) as [a|e| |]; reflexivity.
Qed.
Lemma shift_run : forall q x y w source v, eval O rounds act_match (act_store (VCon ["Action"; "Shift"] []) q x (VVec w) (VVec [VTuple [x; y]]) (parser_value source v)) =
  match closure source with
  | Some (source', Val z) => Some (act_store (VCon ["Action"; "Shift"] []) q x (VVec (w ++ [VCon ["StackSymbol"; "Terminal"] [("token", x)]])) (VVec [z]) (parser_value source' (visit v "shift" [x; y])), Val VUnit)
  | Some (source', o) => Some (act_store (VCon ["Action"; "Shift"] []) q x (VVec (w ++ [VCon ["StackSymbol"; "Terminal"] [("token", x)]])) (VVec []) (parser_value source' (visit v "shift" [x; y])), o)
  | None => None
  end.
Proof.
  intros q x y w source v. set (st := act_store _ _ _ _ _ _).
  assert (E : eval O rounds act_match st = match (match eval_block O rounds (BStmt fetch BNil) (("next_token", x) :: ("next_data", y) :: act_store (VCon ["Action"; "Shift"] []) q x (VVec (w ++ [VCon ["StackSymbol"; "Terminal"] [("token", x)]])) (VVec []) (parser_value source (visit v "shift" [x; y]))) with
     | Some (st', o) => Some (leave st st', o) | None => None end) with Some (st', o) => Some (leave st st', o) | None => None end) by reflexivity.
  rewrite E. set (st1 := ("next_token", x) :: _).
  assert (B : eval_block O rounds (BStmt fetch BNil) st1 = then_value (then_value (match closure source with Some (s', o) => get st <- write_place st1 ("self", ["token_function"]) s'; Some (st, o) | None => None end)
     (fun st v => get w <- read_place st ("lookahead", []); match call_method O "push_back" w [v] with Some (w, vs, o) => get st <- write_place st ("lookahead", []) w; get st <- write_back (XCons (ECall (EField (EPath ["self"]) "token_function") XNil) XNil) vs st; Some (st, o) | None => None end))
     (fun st _ => Some (st, Val VUnit))) by reflexivity.
  rewrite B. destruct (closure source) as [(s', [z|z|])|]; reflexivity.
Qed.
Lemma reduce_run : forall q x wl source v r w self' w' o, method "reduce_stack_and_visit" (parser_value source v) [r; w] = Some (self', [r; w'], o) ->
  eval O rounds act_match (act_store (VCon ["Action"; "Reduce"] [("rule", r)]) q x w wl (parser_value source v)) = Some (act_store (VCon ["Action"; "Reduce"] [("rule", r)]) q x w' wl self', match o with Val _ => Val VUnit | o => o end).
Proof.
  intros q x wl source v r w self' w' o H. set (st := act_store _ _ _ w _ _).
  assert (E : eval O rounds act_match st = match (match then_value (match method "reduce_stack_and_visit" (parser_value source v) [r; w] with
      | Some (v, vs, o) => get st <- write_place (("reduced_rule", r) :: st) ("self", []) v; get st <- write_back (XCons (EPath ["reduced_rule"]) (XCons (ERef true (EPath ["stack"])) XNil)) vs st; Some (st, o) | None => None end) (fun st _ => Some (st, Val VUnit)) with
     | Some (st', o) => Some (leave (("reduced_rule", r) :: st) st', o) | None => None end) with Some (st', o) => Some (leave st st', o) | None => None end) by reflexivity.
  rewrite E, H. destruct o; reflexivity.
Qed.

(** The goto. *)
Lemma goto_part_run : forall a q x wl source v l, Forall (known_symbol g) l ->
  match lr_goto_step p l with
  | Ok l' => exists vars, eval_block O rounds goto_part (act_store a q x (stack_value g l) wl (parser_value source v)) = Some (vars ++ loop_store (stack_value g l') wl (parser_value source v), Val VUnit)
  | _ => exists vars ws, eval_block O rounds goto_part (act_store a q x (stack_value g l) wl (parser_value source v)) = Some (vars ++ loop_store ws wl (parser_value source v), Panics)
  end.
Proof.
  intros a q x wl source v l K. unfold goto_part. rewrite block_let_run, (last_run (fun ws => act_store a q x ws wl (parser_value source v)) l (act_has_stack _ _ _ _ _)).
  destruct l as [|k l]; [exists [("action", a); ("state", q); ("next_token", x)], (stack_value g []); reflexivity|]. cbn [then_value typed]. change (matches (PBind "current_symbol") (symbol_value g k)) with (Some (Some [("current_symbol", symbol_value g k)])). cbv iota. cbn [app].
  rewrite block_let_run, match_run, (index_run (fun ws => ("current_symbol", symbol_value g k) :: act_store a q x ws wl (parser_value source v)) (k :: l) (cur_has_stack _ _ _ _ _ _)).
  destruct l as [|k' l]; [exists [("current_symbol", symbol_value g k); ("action", a); ("state", q); ("next_token", x)], (stack_value g [k]); reflexivity|]. cbn [then_value]. rewrite state_arms_run.
  destruct k' as [t|i|s]; [exists [("current_symbol", symbol_value g k); ("action", a); ("state", q); ("next_token", x)]; eexists; reflexivity|exists [("current_symbol", symbol_value g k); ("action", a); ("state", q); ("next_token", x)]; eexists; reflexivity|].
  cbn [then_value typed lr_goto_step]. change (matches (PBind "state") (usize_value (N.of_nat s))) with (Some (Some [("state", usize_value (N.of_nat s))])). cbv iota. cbn [app].
  rewrite block_let_run. set (F := fun ws => ("state", usize_value (N.of_nat s)) :: ("current_symbol", symbol_value g k) :: act_store a q x ws wl (parser_value source v)). set (w := stack_value g (k :: KState s :: l)).
  assert (E : eval O rounds (EMethod (EPath ["self"]) "next_goto" (XCons (EPath ["state"]) (XCons (EDeref (EPath ["current_symbol"])) XNil))) (F w) =
    match method "next_goto" (parser_value source v) [usize_value (N.of_nat s); symbol_value g k] with
      | Some (v, vs, o) => get st <- write_place (F w) ("self", []) v; get st <- write_back (XCons (EPath ["state"]) (XCons (EDeref (EPath ["current_symbol"])) XNil)) vs st; Some (st, o) | None => None end) by reflexivity.
  change (("state", usize_value (N.of_nat s)) :: ("current_symbol", symbol_value g k) :: act_store a q x w wl (parser_value source v)) with (F w). rewrite E, (Hgoto source v s k) by (inversion K; assumption). cbv iota. change (write_place (F w) ("self", []) (parser_value source v)) with (Some (F w)).
  cbn [write_back]. cbv iota. unfold goto_outcome. destruct (next_goto_ends (lp_gotos p) s k) as [(go & ->)| ->]; cbn [bind then_value].
  - cbn [typed]. change (matches (PBind "goto") (goto_value go)) with (Some (Some [("goto", goto_value go)])). cbv iota. cbn [app]. set (G := fun ws => ("goto", goto_value go) :: F ws).
    assert (HG : has_stack G) by (intros w0; split; reflexivity). change (("goto", goto_value go) :: F w) with (G w). destruct go as [|s'].
    + assert (A : eval_block O rounds (BTail goto_match) (G w) = match (match then_value (eval O rounds (method0 (EPath ["stack"]) "pop") (G w)) (fun st _ => then_value (eval O rounds (method0 (EPath ["stack"]) "pop") st) (fun st _ => Some (st, Val VUnit))) with Some (st', o) => Some (leave (G w) st', o) | None => None end)
         with Some (st', o) => Some (leave (G w) st', o) | None => None end) by reflexivity.
      rewrite A. unfold w at 1. rewrite (pop_stack_run G _ _ HG). cbn [then_value]. rewrite (pop_stack_run G _ _ HG). cbn [then_value]. exists [("goto", goto_value GotoAccept); ("state", usize_value (N.of_nat s)); ("current_symbol", symbol_value g k); ("action", a); ("state", q); ("next_token", x)]. reflexivity.
    + exists [("goto", goto_value (GotoState s')); ("state", usize_value (N.of_nat s)); ("current_symbol", symbol_value g k); ("action", a); ("state", q); ("next_token", x)]. reflexivity.
  - exists [("state", usize_value (N.of_nat s)); ("current_symbol", symbol_value g k); ("action", a); ("state", q); ("next_token", x)], w. reflexivity.
Qed.

(** The loop. *)
Section Loop.
Variables (S D : Type) (pull : token_source S D) (state : S -> value) (data : D -> value).
Hypothesis Hp : pulls g pull state data closure.
Local Notation visited := (visited g (all_visits true g) data visit).
Definition looked (t : token) (d : D) : value := VVec [VTuple [token_value g t; data d]].
Lemma body_run : forall k l t d s v, Forall (known_symbol g) (k :: l) -> known g t ->
  let st := loop_store (stack_value g (k :: l)) (looked t d) (parser_value (state s) v) in
  let '(calls, r) := pull_act S D pull p (k :: l) t d s in
  let v' := fold_left visited calls v in
  match r with
  | Ok (l', (t', d', s')) => Forall (known_symbol g) l' /\ known g t' /\
    match lr_goto_step p l' with
    | Ok l'' => scoped [] st (eval_block O rounds loop_body) = Some (loop_store (stack_value g l'') (looked t' d') (parser_value (state s') v'), Val VUnit)
    | _ => exists ws wl, scoped [] st (eval_block O rounds loop_body) = Some (loop_store ws wl (parser_value (state s') v'), Panics)
    end
  | Err e => exists ws wl, scoped [] st (eval_block O rounds loop_body) = Some (loop_store ws wl (parser_value (state s) v'), Ret (VErr (parser_error_value g e)))
  | Panic => exists ws wl source, scoped [] st (eval_block O rounds loop_body) = Some (loop_store ws wl (parser_value source v'), Panics)
  | OutOfFuel => False
  end.
Proof.
  intros k l t d s v K Kt st. remember (scoped [] st (eval_block O rounds loop_body)) as run eqn:R. unfold scoped in R. cbn [app] in R. unfold st, looked in R. rewrite start_run in R. clear st. destruct k as [u|i|q]; cbn [pull_act]; [do 3 eexists; exact R|do 3 eexists; exact R|].
  rewrite (ask_run q t _ _ _ _ _ Kt) in R. pose proof (reduce_known q t) as RK. pose proof (next_action_fuel (lp_actions p) q t) as NF. destruct (next_action (lp_actions p) q t) as [a|e| |]; [|do 2 eexists; exact R|do 3 eexists; exact R|congruence].
  rewrite block_stmt_run in R. destruct a as [|rule].
  - change (action_value ActShift) with (VCon ["Action"; "Shift"] []) in R. unfold stack_value at 1 in R. rewrite shift_run in R. pose proof (Hp s) as P. destruct (pull s) as [((t', d'), s')|].
    + destruct P as (Kt' & P). rewrite P in R. assert (K' : Forall (known_symbol g) (KTerminal t :: KState q :: l)) by (constructor; [exact Kt|exact K]). split; [exact K'|split; [exact Kt'|]]. cbn [then_value] in R.
      change (VVec (rev (map (symbol_value g) (KState q :: l)) ++ [VCon ["StackSymbol"; "Terminal"] [("token", token_value g t)]])) with (stack_value g (KTerminal t :: KState q :: l)) in R.
      pose proof (goto_part_run (VCon ["Action"; "Shift"] []) (usize_value (N.of_nat q)) (token_value g t) (VVec [VTuple [token_value g t'; data d']]) (state s') (visit v "shift" [token_value g t; data d]) _ K') as G.
      destruct (lr_goto_step p (KTerminal t :: KState q :: l)) as [l''|e| |].
      * destruct G as (vars & G). rewrite G, leave_vars in R by reflexivity. exact R.
      * destruct G as (vars & ws & G). rewrite G, leave_vars in R by reflexivity. do 2 eexists. exact R.
      * destruct G as (vars & ws & G). rewrite G, leave_vars in R by reflexivity. do 2 eexists. exact R.
      * destruct G as (vars & ws & G). rewrite G, leave_vars in R by reflexivity. do 2 eexists. exact R.
    + destruct P as (source & P). rewrite P in R. do 3 eexists. exact R.
  - specialize (RK rule eq_refl). change (action_value (ActReduce rule)) with (VCon ["Action"; "Reduce"] [("rule", rule_value rule)]) in R. pose proof (Hreduce (state s) v rule (KState q :: l) RK) as Q.
    destruct (reduce_ends rule _ K) as [(l' & E & K')|E]; rewrite E in *.
    + split; [exact K'|split; [exact Kt|]]. rewrite (reduce_run _ _ _ _ _ _ _ _ _ _ Q) in R. cbn [then_value] in R. cbn [fold_left RustLRTextSpec.visited].
      pose proof (goto_part_run (VCon ["Action"; "Reduce"] [("rule", rule_value rule)]) (usize_value (N.of_nat q)) (token_value g t) (VVec [VTuple [token_value g t; data d]]) (state s) (visit v (rule_method (all_visits true g) rule) []) _ K') as G.
      destruct (lr_goto_step p l') as [l''|e| |].
      * destruct G as (vars & G). rewrite G, leave_vars in R by reflexivity. exact R.
      * destruct G as (vars & ws & G). rewrite G, leave_vars in R by reflexivity. do 2 eexists. exact R.
      * destruct G as (vars & ws & G). rewrite G, leave_vars in R by reflexivity. do 2 eexists. exact R.
      * destruct G as (vars & ws & G). rewrite G, leave_vars in R by reflexivity. do 2 eexists. exact R.
    + destruct Q as (w & Q). rewrite (reduce_run _ _ _ _ _ _ _ _ _ _ Q) in R. do 3 eexists. exact R.
Qed.
Definition loop_cond : store -> option (store * outcome) := eval O rounds (ENot (method0 (EPath ["stack"]) "is_empty")).
Lemma cond_run : forall l wl self, loop_cond (loop_store (stack_value g l) wl self) = Some (loop_store (stack_value g l) wl self, Val (VBool (match l with [] => false | _ => true end))).
Proof.
  intros l wl self. assert (E : forall w, loop_cond (loop_store (VVec w) wl self) = Some (loop_store (VVec w) wl self, Val (VBool (negb (match w with [] => true | _ => false end))))) by reflexivity.
  unfold stack_value at 1. rewrite E. destruct l as [|k l]; [reflexivity|]. unfold stack_value. cbn [map rev]. destruct (rev (map (symbol_value g) l) ++ [symbol_value g k]) eqn:X; [destruct (app_cons_not_nil _ _ _ (eq_sym X))|reflexivity].
Qed.
Lemma loop_run : forall n l t d s v, Forall (known_symbol g) l -> known g t ->
  let run := while_body n loop_cond (fun st => scoped [] st (eval_block O rounds loop_body)) (loop_store (stack_value g l) (looked t d) (parser_value (state s) v)) in
  let '(calls, r) := pull_run S D pull n p l (t, d, s) in
  let v' := fold_left visited calls v in
  match r with
  | Ok s' => exists ws wl, run = Some (loop_store ws wl (parser_value (state s') v'), Val VUnit)
  | Err e => exists ws wl source, run = Some (loop_store ws wl (parser_value source v'), Ret (VErr (parser_error_value g e)))
  | Panic => exists ws wl source, run = Some (loop_store ws wl (parser_value source v'), Panics)
  | OutOfFuel => run = None
  end.
Proof.
  induction n as [|n IH]; intros l t d s v K Kt; cbn [pull_run while_body]; [reflexivity|]. rewrite cond_run. cbn [then_value]. destruct l as [|k l]; [do 2 eexists; reflexivity|].
  pose proof (body_run k l t d s v K Kt) as B. cbn [fst snd]. destruct (pull_act S D pull p (k :: l) t d s) as (calls, [(l', ((t', d'), s'))|e| |]); cbv zeta in B.
  - destruct B as (K' & Kt' & B). destruct (goto_step_ends l' K') as [(l'' & E & K'')|E]; rewrite E in B |- *.
    + specialize (IH l'' t' d' s' (fold_left visited calls v) K'' Kt'). cbv zeta in IH. rewrite B. cbn [then_value]. destruct (pull_run S D pull n p l'' (t', d', s')) as (calls', r). rewrite fold_left_app. exact IH.
    + destruct B as (ws & wl & ->). do 3 eexists. reflexivity.
  - destruct B as (ws & wl & ->). do 3 eexists. reflexivity.
  - destruct B as (ws & wl & source & ->). do 3 eexists. reflexivity.
  - destruct B.
Qed.
Lemma run_parse : forall s v,
    let run := run_function O rounds (f_parse (the_parser g p)) [parser_value (state s) v] in
    let '(calls, r) := pull_parse S D pull rounds p s in
    let v' := fold_left visited calls v in
    match r with
    | Ok s' => run = Some ([parser_value (state s') v'], Val (VOk VUnit))
    | Err e => exists source', run = Some ([parser_value source' v'], Val (VErr (parser_error_value g e)))
    | Panic => exists source', run = Some ([parser_value source' v'], Panics)
    | OutOfFuel => run = None
    end.
Proof.
  intros s v. unfold run_function. cbn [the_parser f_parse List.length fn_parameters Nat.eqb map fst combine fn_body]. unfold scoped. cbn [app]. unfold pull_parse.
  set (st := [("self", parser_value (state s) v)]).
  assert (E : eval_block O rounds (parse_body (lp_entry p)) st = then_value (then_value (match closure (state s) with Some (s', o) => get st <- write_place (("lookahead", VVec []) :: st) ("self", ["token_function"]) s'; Some (st, o) | None => None end)
     (fun st v => get w <- read_place st ("lookahead", []); match call_method O "push_back" w [v] with Some (w, vs, o) => get st <- write_place st ("lookahead", []) w; get st <- write_back (XCons (ECall (EField (EPath ["self"]) "token_function") XNil) XNil) vs st; Some (st, o) | None => None end))
     (fun st _ => eval_block O rounds (BLet (PBind "stack") None (ECall (EPath ["Vec"; "new"]) XNil) (BStmt (push_state (usize_expr (lp_entry p))) (BStmt parse_loop (BTail (ECall (EPath ["Ok"]) (XCons (ETuple XNil) XNil)))))) st)) by reflexivity.
  rewrite E. pose proof (Hp s) as P. destruct (pull s) as [((t, d), s')|].
  - destruct P as (Kt & ->).
    assert (B : then_value (then_value (get st <- write_place (("lookahead", VVec []) :: st) ("self", ["token_function"]) (state s'); Some (st, Val (VTuple [token_value g t; data d])))
     (fun st v => get w <- read_place st ("lookahead", []); match call_method O "push_back" w [v] with Some (w, vs, o) => get st <- write_place st ("lookahead", []) w; get st <- write_back (XCons (ECall (EField (EPath ["self"]) "token_function") XNil) XNil) vs st; Some (st, o) | None => None end))
     (fun st _ => eval_block O rounds (BLet (PBind "stack") None (ECall (EPath ["Vec"; "new"]) XNil) (BStmt (push_state (usize_expr (lp_entry p))) (BStmt parse_loop (BTail (ECall (EPath ["Ok"]) (XCons (ETuple XNil) XNil)))))) st) =
      then_value (while_body rounds loop_cond (fun st => scoped [] st (eval_block O rounds loop_body)) (loop_store (stack_value g [KState (lp_entry p)]) (looked t d) (parser_value (state s') v))) (fun st _ => Some (st, Val (VOk VUnit)))) by reflexivity.
    cbv beta iota. rewrite B. pose proof (loop_run rounds [KState (lp_entry p)] t d s' v ltac:(constructor; [exact I|constructor]) Kt) as L. cbv zeta in L. destruct (pull_run S D pull rounds p [KState (lp_entry p)] (t, d, s')) as (calls, [s''|e| |]).
    + destruct L as (ws & wl & ->). reflexivity.
    + destruct L as (ws & wl & source & ->). exists source. reflexivity.
    + destruct L as (ws & wl & source & ->). exists source. reflexivity.
    + rewrite L. reflexivity.
  - destruct P as (source & ->). exists source. reflexivity.
Qed.
End Loop.
End Parsing.

Lemma run_new_parser : forall visit rounds source v, run_function (visitor_outer visit) rounds (f_new_parser (the_parser g p)) [source; visitor_value v] = Some ([source; visitor_value v], Val (parser_value source v)).
Proof. reflexivity. Qed.
Lemma parser_does_so : parser_does g p (all_visits true g) (the_parser g p).
Proof.
  constructor.
  - exact run_new_parser.
  - intros visit rounds self state t K. apply (run_action (fun _ _ => None) (visiting visit) (fun _ => None)). exact K.
  - intros visit rounds self state k K. apply (run_goto (fun _ _ => None) (visiting visit) (fun _ => None)). exact K.
  - intros visit rounds source v rule stack L. exact (run_reduce visit rounds source v rule stack L).
  - intros S D pull state data source visit rounds s v Hp.
    set (run := fun self args fn => match run_function (visitor_outer visit) rounds fn (self :: args) with Some (v :: args, o) => Some (v, args, o) | _ => None end).
    set (method := fun (m : string) self (args : list value) => match m with "next_action" => run self args (f_action (the_parser g p)) | "next_goto" => run self args (f_goto (the_parser g p)) | "reduce_stack_and_visit" => run self args (f_reduce (the_parser g p)) | _ => None end).
    refine (run_parse visit method source rounds _ _ _ S D pull state data Hp s v).
    + intros src w q t K. change (run (parser_value src w) [usize_value (N.of_nat q); token_value g t] (f_action (the_parser g p)) = Some (parser_value src w, [usize_value (N.of_nat q); token_value g t], action_outcome q t (lp_actions p))).
      unfold run, visitor_outer. rewrite run_action by exact K. reflexivity.
    + intros src w q k K. change (run (parser_value src w) [usize_value (N.of_nat q); symbol_value g k] (f_goto (the_parser g p)) = Some (parser_value src w, [usize_value (N.of_nat q); symbol_value g k], goto_outcome q k (lp_gotos p))).
      unfold run, visitor_outer. rewrite run_goto by exact K. reflexivity.
    + intros src w rule stack L. change (method "reduce_stack_and_visit") with (fun self args => run self args (f_reduce (the_parser g p))). cbv beta. unfold run. pose proof (run_reduce visit rounds src w rule stack L) as R.
      destruct (reduce_stack p rule stack); [rewrite R; reflexivity| | |]; destruct R as (l & R); exists l; rewrite R; reflexivity.
Qed.
End Running.
