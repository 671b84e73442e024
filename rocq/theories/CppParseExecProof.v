(** Proofs about what [parse] in the text of emitted C++ LR parsers does. *)
From Coq Require Import String Ascii List Arith NArith ZArith Bool Lia.
From Verif Require Import Base GrammarModel LRModel NamesModel CppLexerModel CppLexerProof CppLRModel CppPullModel TemplateModel TemplateFiles CppTextModel CppTextSpec CppTextProof CppLexTextSpec CppLexTextProof CppLexRunProof CppLRTextModel CppLRTextSpec CppCaseProof CppLRTextProof CppLRCheckProof CppLRExecProof.
Import ListNotations.
Local Open Scope string_scope.
Local Open Scope list_scope.

(** The first lines of the functions. *)
Definition action_params : list param := Eval vm_compute in match signature action_head with Some (_, l) => l | None => [] end.
Definition reduce_params : list param := Eval vm_compute in match signature reduce_head with Some (_, l) => l | None => [] end.
Definition goto_params : list param := Eval vm_compute in match signature goto_head with Some (_, l) => l | None => [] end.
Definition visit_params : list param := Eval vm_compute in match signature visit_head with Some (_, l) => l | None => [] end.
Lemma action_signature : signature action_head = Some ("determine_action", action_params). Proof. vm_compute. reflexivity. Qed.
Lemma reduce_signature : signature reduce_head = Some ("reduce_stack", reduce_params). Proof. vm_compute. reflexivity. Qed.
Lemma goto_signature : signature goto_head = Some ("retrieve_next_state", goto_params). Proof. vm_compute. reflexivity. Qed.
Lemma visit_signature : signature visit_head = Some ("reduce_visitor", visit_params). Proof. vm_compute. reflexivity. Qed.

Lemma convert_u32 : forall t z, (0 <= z < 4294967296)%Z -> convert "uint32_t" (VInt t z) = Some (VInt U32 z).
Proof. intros t z L. change (convert "uint32_t" (VInt t z)) with (Some (VInt U32 (wrap U32 z))). rewrite wrap_u32 by exact L. reflexivity. Qed.

Section Does.
Variables (P : program) (ext : externals).
Lemma does_let : forall st t x e v t' v', (forall n, exec_value (S n) P ext st e = Some (st, RReturn (Some v))) -> type_name t = Some t' -> (if String.eqb t' "auto" then Some v else convert t' v) = Some v' ->
  does P ext st (SLet t x e) (declare st x v') RNext.
Proof. intros st t x e v t' v' E T C. apply (ev_const _ 2). intros n. cbn [Nat.add exec]. rewrite (E n), T, C. reflexivity. Qed.
Definition calling (st : store) (f : expr) (args : list expr) (st' : store) (r : result) : Prop := eventually (fun fuel => exec_call fuel P ext st f args = Some (st', r)).
Lemma does_call : forall st f args st' v, calling st f args st' (RReturn v) -> does P ext st (SExpr (ECall f args)) st' RNext.
Proof. intros st f args st' v H. apply (ev_imp _ _ 1 0 H). intros n X. cbn [Nat.add exec] in *. rewrite X. reflexivity. Qed.
Lemma does_call_stop : forall st f args st' r, calling st f args st' r -> (forall v, r <> RReturn v) -> does P ext st (SExpr (ECall f args)) st' r.
Proof. intros st f args st' r H N. apply (ev_imp _ _ 1 0 H). intros n X. cbn [Nat.add exec] in *. rewrite X. destruct r; try reflexivity. destruct (N v eq_refl). Qed.
Lemma does_let_call : forall st t x f args st' v t' v', calling st f args st' (RReturn (Some v)) -> looks f = false -> type_name t = Some t' -> (if String.eqb t' "auto" then Some v else convert t' v) = Some v' ->
  does P ext st (SLet t x (ECall f args)) (declare st' x v') RNext.
Proof. intros st t x f args st' v t' v' H L T C. apply (ev_imp _ _ 2 0 H). intros n X. cbn [Nat.add exec exec_value] in *. rewrite L, X, T, C. reflexivity. Qed.
Lemma does_let_stop : forall st t x f args st' r, calling st f args st' r -> looks f = false -> (forall v, r <> RReturn v) -> does P ext st (SLet t x (ECall f args)) st' r.
Proof. intros st t x f args st' r H L N. apply (ev_imp _ _ 2 0 H). intros n X. cbn [Nat.add exec exec_value] in *. rewrite L, X. destruct r; try reflexivity. destruct (N v eq_refl). Qed.
(** A call of a function of the text. *)
Lemma calling_function : forall st g args ps body l inner r st', In g ["determine_action"; "reduce_stack"; "retrieve_next_state"; "reduce_visitor"] -> find_name g (functions P) = Some (ps, body) -> pass P st ps args = Some l ->
  does P ext (mkStore l (members st)) body inner r -> pass_back (locals inner) ps args (mkStore (locals st) (members inner)) = Some st' -> calling st (EName [g]) args st' (match r with RNext => RReturn None | _ => r end).
Proof.
  intros st g args ps body l inner r st' J F A H B. apply (ev_imp _ _ 1 0 H). intros n X. cbn [Nat.add] in X. change (1 + n)%nat with (S n).
  destruct J as [<-|[<-|[<-|[<-|[]]]]]; cbn [exec_call]; rewrite F, A, X, B; reflexivity.
Qed.
End Does.

Section Parse.
Context {A D : Type}.
Variables (c : cpp_lr) (visits : list (nat * option string)) (pull : token_source A D) (fits : nat -> A -> Prop) (state : A -> value) (data : D -> value) (source : value -> option (value * value)).
Definition the_functions : list (string * (list param * stmt)) :=
  [("determine_action", (action_params, action_body c)); ("reduce_stack", (reduce_params, reduce_body c)); ("retrieve_next_state", (goto_params, goto_body c)); ("reduce_visitor", (visit_params, visit_body visits))].
Notation P := (lr_program (enumerators (cx_names c)) (cx_nts c) the_functions).
Notation ext := (outside P (cx_names c) source).
Hypothesis (W : writable_lr c) (WV : writable_visits visits) (C : cpp_compiles c) (U : pulls pull fits state data source) (V : forall k, In k (map fst (cx_reductions c)) -> In k (map fst visits)).

Definition small (s : csym) : Prop := (sy_ident s < 2 ^ 32)%N.
Definition token_value (tk : N * D) : value := pair_value (fst tk) (data (snd tk)).
Definition entry : csym := mkSym KindState (N.of_nat (cx_entry c)).
(** The variables outside the loop. *)
Definition outer (stack : list csym) (q : list value) : list (string * value) := [("entry_symbol", symbol_value entry); ("parse_stack", stack_value stack); ("lookahead", VVec q)].
Definition looking (s : N) (tk : N * D) (l : list (string * value)) : list (string * value) :=
  [("state", VInt U32 (Z.of_N s)); ("next_symbol", symbol_value (mkSym KindTerminal (fst tk))); ("next_tk", VEnum "TokenType" (Z.of_N (fst tk))); ("next_token_and_data", token_value tk)] ++ l.

Lemma runs_look : forall top stack tk m b st' r, small top -> (fst tk < 2 ^ 32)%N -> runs P ext (mkStore (looking (sy_ident top) tk (outer (top :: stack) [token_value tk])) m) b st' r ->
  runs P ext (mkStore (outer (top :: stack) [token_value tk]) m) (stmts (firstn 4 look_stmts) b) st' r.
Proof.
  intros top stack tk m b st' r S1 S2 H. unfold small in S1. cbn [look_stmts firstn stmts fold_right].
  eapply runs_cons; [eapply (does_let _ _ _ ["auto"]); [intros n; reflexivity|reflexivity|reflexivity]|].
  eapply runs_cons; [eapply (does_let _ _ _ ["lexer"; "TokenType"]); [intros n; reflexivity|reflexivity|reflexivity]|].
  eapply runs_cons.
  - eapply (does_init P ext _ ["Symbol"]); [reflexivity|reflexivity|]. instantiate (1 := [("kind", kind_value KindTerminal); ("identifier", VInt U32 (Z.of_N (fst tk)))]). cbn [init_fields].
    change (eval P _ (EName ["SymbolKind"; "Terminal"])) with (Some (VEnum "SymbolKind" 0)). change (eval P _ (ECast ["uint32_t"] (EName ["next_tk"]))) with (Some (VInt U32 (wrap U32 (Z.of_N (fst tk))))). cbv iota beta.
    change (exact "uint32_t" (VInt U32 (wrap U32 (Z.of_N (fst tk))))) with (if (wrap U32 (wrap U32 (Z.of_N (fst tk))) =? wrap U32 (Z.of_N (fst tk)))%Z then Some (VInt U32 (wrap U32 (wrap U32 (Z.of_N (fst tk))))) else None).
    rewrite !wrap_u32 by (rewrite ?wrap_u32; lia). rewrite Z.eqb_refl. reflexivity.
  - eapply runs_cons; [|exact H]. eapply does_eq; [eapply (does_let _ _ _ ["uint32_t"] "state"); [intros n; reflexivity|reflexivity|]|reflexivity|reflexivity]. cbv iota beta. apply convert_u32. lia.
Qed.

Lemma leave_app : forall l p a m m', List.length a = List.length l -> leave (mkStore l m) (mkStore (p ++ a) m') = mkStore a m'.
Proof.
  intros l p a m m' H. unfold leave. cbn [locals members]. rewrite app_length, H. replace (List.length p + List.length l - List.length l)%nat with (List.length p) by lia. f_equal.
  induction p as [|x p IH]; [reflexivity|exact IH].
Qed.
Lemma does_fetch : forall nf l q s log tk s', fits (Datatypes.S nf) s -> find_name "lookahead" l = Some (VVec q) -> pull s = Some (tk, s') ->
  does P ext (mkStore l (parser_members (state s) log)) fetch (mkStore (set_name "lookahead" (VVec (token_value tk :: q)) l) (parser_members (state s') log)) RNext.
Proof.
  intros nf l q s log (k, d) s' FT F E. pose proof (proj2 U nf s FT) as X. rewrite E in X. destruct X as (X & _). unfold fetch, call. eapply does_call. apply (ev_const _ 4). intros n.
  assert (Y : exec_value (3 + n) P ext (mkStore l (parser_members (state s) log)) (ECall (EArrow EThis "token_function") []) = Some (mkStore l (parser_members (state s') log), RReturn (Some (token_value (k, d))))).
  { cbn [Nat.add exec_value looks exec_call]. unfold outside. change (find_name "token_function" (members (mkStore l (parser_members (state s) log)))) with (Some (state s)). cbv iota beta. rewrite X. reflexivity. }
  change (4 + n)%nat with (Datatypes.S (3 + n)). cbn [exec_call]. rewrite Y. cbn [eval locals]. rewrite F. unfold put. cbn [locals members]. rewrite F. reflexivity.
Qed.

(** What a round knows about the stack. *)
Lemma reduce_small : forall rule stack stack', cpp_reduce_stack c rule stack = Ok stack' -> Forall small stack -> Forall small stack' /\ (List.length stack' <= Datatypes.S (List.length stack))%nat.
Proof.
  intros rule stack stack' H F. unfold cpp_reduce_stack in H. destruct (numbered _ _) as [(n, s)|]; [|discriminate]. destruct (enum_value (cx_nts c) s) as [v|] eqn:E; [|discriminate]. apply (enum_value_bound c W) in E.
  assert (X : forall n stack stack', pop_symbols n stack = Ok stack' -> Forall small stack -> Forall small stack' /\ (List.length stack' <= List.length stack)%nat).
  { clear. induction n as [|n IH]; intros stack stack' H F; cbn in H; [injection H as <-; split; [exact F|lia]|]. destruct stack as [|x [|y stack]]; try discriminate. inversion F as [|? ? _ F']. inversion F' as [|? ? _ F'']. subst. destruct (IH _ _ H F''). split; [assumption|cbn; lia]. }
  destruct (pop_symbols n stack) as [l| | |] eqn:Q; cbn [bind] in H; try discriminate. injection H as <-. rename Q into H. destruct (X _ _ _ H F). split; [constructor; assumption|cbn; lia].
Qed.
Lemma act_small : forall nf stack tk s ev stack' tk' s', pull_act pull c stack tk s = (ev, Ok (stack', tk', s')) -> fits (Datatypes.S nf) s -> Forall small stack -> (fst tk < 2 ^ 32)%N -> Forall small stack' /\ (fst tk' < 2 ^ 32)%N /\ fits nf s' /\ (List.length stack' <= Datatypes.S (List.length stack))%nat.
Proof.
  intros nf stack tk s ev stack' tk' s' H FT F L. unfold pull_act in H. destruct stack as [|top stack]; [discriminate|]. destruct (determine_action _ _ _) as [[|rule]| | |]; try discriminate.
  - pose proof (proj2 U nf s FT) as X. destruct (pull s) as [[[k d] s1]|]; [|discriminate]. injection H as _ <- <- <-. split; [constructor; [exact L|exact F]|]. split; [exact (proj1 (proj2 X))|]. split; [exact (proj2 (proj2 X))|cbn; lia].
  - destruct (cpp_reduce_stack c rule (top :: stack)) as [l| | |] eqn:E; try discriminate. injection H as _ <- <- <-. destruct (reduce_small _ _ _ E F). split; [assumption|]. split; [exact L|]. split; [exact (proj1 U _ _ FT)|assumption].
Qed.
Lemma numbered_in : forall {B} (l : list (nat * B)) k, In k (map fst l) -> exists b, numbered l (N.of_nat k) = Some b.
Proof.
  intros B l k. induction l as [|(q, b) l IH]; intros J; [destruct J|]. cbn [numbered]. destruct (N.eqb_spec (N.of_nat q) (N.of_nat k)) as [E|E]; [exists b; reflexivity|]. apply IH. destruct J as [J|J]; [cbn in J; lia|exact J].
Qed.
Lemma numbered_get : forall {B} (l : list (nat * B)) k b, numbered l (N.of_nat k) = Some b -> In (k, b) l.
Proof.
  intros B l k b. induction l as [|(q, x) l IH]; intros H; [discriminate|]. cbn [numbered] in H. destruct (N.eqb_spec (N.of_nat q) (N.of_nat k)) as [E|E]; [injection H as ->; left; f_equal; lia|]. right. exact (IH H).
Qed.

Definition logs (ev : list (visitor_call D)) (log : list value) : list value := rev (flat_map (call_value data visits) ev) ++ log.
Definition acting (a : lr_action) (s : N) (tk : N * D) (l : list (string * value)) : list (string * value) := ("action", action_value a) :: looking s tk l.

Lemma determine_reduce : forall s tk k, determine_action c s tk = Ok (ActReduce k) -> (N.of_nat k < 65536)%N.
Proof.
  intros s tk k H. unfold determine_action in H. rewrite numbered_find in H. destruct (find _ _) as [(q, (cases, ex))|] eqn:F; [|discriminate]. cbn [option_map snd] in H. apply find_some in F. destruct F as (J & _).
  destruct (cc_actions c C q cases ex J) as (_ & FT). rewrite switch_find in H. destruct (find _ cases) as [(l, a)|] eqn:F; [|discriminate]. cbn [option_map snd] in H. injection H as ->. apply find_some in F. exact (FT l _ (proj1 F)).
Qed.
Lemma calling_action : forall s tk l m r, find_name "state" l = Some (VInt U32 (Z.of_N s)) -> find_name "next_tk" l = Some (VEnum "TokenType" (Z.of_N tk)) -> (s < 2 ^ 32)%N -> ending (fun a => Some (action_value a)) (determine_action c s tk) = Some r ->
  calling P ext (mkStore l m) (EName ["determine_action"]) [EName ["state"]; EName ["next_tk"]] (mkStore l m) r.
Proof.
  intros s tk l m r F1 F2 L H. assert (NR : match r with RNext => RReturn None | _ => r end = r).
  { unfold ending in H. destruct (determine_action c s tk) as [x|[]| |]; try discriminate; injection H as <-; reflexivity. }
  rewrite <- NR. eapply (calling_function P ext _ _ _ action_params (action_body c)); [left; reflexivity|reflexivity| |exact (does_determine_action c the_functions source W C eq_refl s tk m r H)|reflexivity].
  cbn [pass action_params eval locals]. rewrite F1, F2. cbn [passed type_name p_type]. rewrite convert_u32 by lia. reflexivity.
Qed.

Lemma does_shift : forall nf top stack tk s log tk' s', fits (Datatypes.S nf) s -> pull s = Some (tk', s') ->
  does P ext (mkStore (acting ActShift (sy_ident top) tk (outer (top :: stack) [token_value tk])) (parser_members (state s) log)) act_stmt
    (mkStore (acting ActShift (sy_ident top) tk (outer (mkSym KindTerminal (fst tk) :: top :: stack) [token_value tk'])) (parser_members (state s') (logs [CallShift (fst tk) (snd tk)] log))) RNext.
Proof.
  intros nf top stack tk s log tk' s' FT E. unfold act_stmt. eapply does_if; [reflexivity|reflexivity|]. unfold block. eapply does_eq; [apply does_block; cbn [shift_stmts stmts fold_right]|apply leave_same; reflexivity|reflexivity].
  eapply runs_cons; [apply (ev_const _ 4); intros n; reflexivity|]. eapply runs_cons; [apply (ev_const _ 4); intros n; reflexivity|]. eapply runs_cons; [apply (ev_const _ 4); intros n; reflexivity|].
  eapply runs_cons; [|apply runs_nil]. eapply does_eq; [apply (does_fetch nf _ [] s (logs [CallShift (fst tk) (snd tk)] log) tk' s'); [exact FT|reflexivity|exact E]|reflexivity|reflexivity].
Qed.
Lemma calling_reduce : forall rule stack l m r stack', find_name "action" l = Some (action_value (ActReduce rule)) -> find_name "parse_stack" l = Some (stack_value stack) -> (N.of_nat rule < 65536)%N -> ending (fun _ => None) (cpp_reduce_stack c rule stack) = Some r ->
  (match cpp_reduce_stack c rule stack with Ok x => stack' = x | _ => stack' = stack end) ->
  exists moved, calling P ext (mkStore (("rev_reduced_symbols", VVec []) :: l) m) (EName ["reduce_stack"]) [EField (EName ["action"]) "reduced_rule"; EName ["parse_stack"]; EName ["rev_reduced_symbols"]]
    (mkStore (("rev_reduced_symbols", VVec moved) :: set_name "parse_stack" (stack_value stack') l) m) r.
Proof.
  intros rule stack l m r stack' F1 F2 L H Q. assert (NR : match r with RNext => RReturn None | _ => r end = r).
  { unfold ending in H. destruct (cpp_reduce_stack c rule stack) as [x|[]| |]; try discriminate; injection H as <-; reflexivity. }
  pose proof (does_reduce_stack c the_functions source W rule stack [] m r H) as X. 
  assert (Y : exists moved, does P ext (reduce_store (VInt U32 (Z.of_nat rule)) stack [] m) (reduce_body c) (reduce_store (VInt U32 (Z.of_nat rule)) stack' moved m) r).
  { destruct (cpp_reduce_stack c rule stack) as [x| | |]; subst stack'; eexists; exact X. }
  destruct Y as (moved & Y). exists (map symbol_value moved). rewrite <- NR.
  eapply (calling_function P ext _ _ _ reduce_params (reduce_body c)); [right; left; reflexivity|reflexivity| |exact Y|].
  - cbn [pass reduce_params eval locals]. change (find_name "action" (("rev_reduced_symbols", VVec []) :: l)) with (find_name "action" l). change (find_name "parse_stack" (("rev_reduced_symbols", VVec []) :: l)) with (find_name "parse_stack" l). rewrite F1, F2.
    unfold action_value. change (find_name "reduced_rule" _) with (Some (VInt U16 (Z.of_nat rule))). cbn [passed type_name p_type]. rewrite convert_u32 by lia. reflexivity.
  - cbn [pass_back reduce_params p_ref p_name locals reduce_store]. change (find_name "parse_stack" _) with (Some (stack_value stack')) at 1. cbv iota beta. unfold put at 1. cbn [locals members].
    change (find_name "parse_stack" (("rev_reduced_symbols", VVec []) :: l)) with (find_name "parse_stack" l). rewrite F2. reflexivity.
Qed.
Lemma calling_visitor : forall rule method log revs l sv, find_name "action" l = Some (action_value (ActReduce rule)) -> (N.of_nat rule < 65536)%N -> numbered visits (N.of_nat rule) = Some method ->
  calling P ext (mkStore (("rev_reduced_symbols", VVec revs) :: l) (parser_members sv log)) (EName ["reduce_visitor"]) [EArrow EThis "visitor"; EName ["rev_reduced_symbols"]; EField (EName ["action"]) "reduced_rule"]
    (mkStore (("rev_reduced_symbols", VVec revs) :: l) (parser_members sv (logs [CallReduce rule] log))) (RReturn None).
Proof.
  intros rule method log revs l sv F1 L M. eapply (calling_function P ext _ _ _ visit_params (visit_body visits) _ _ (RReturn None)); [right; right; right; left; reflexivity|reflexivity| |exact (does_reduce_visitor c the_functions source visits log revs rule _ method WV M)|].
  - cbn [pass visit_params eval locals members]. change (find_name "visitor" (parser_members sv log)) with (Some (visitor_value log)). change (find_name "action" (("rev_reduced_symbols", VVec revs) :: l)) with (find_name "action" l). rewrite F1.
    unfold action_value. change (find_name "reduced_rule" _) with (Some (VInt U16 (Z.of_nat rule))). cbn [passed type_name p_type]. rewrite convert_u32 by lia. reflexivity.
  - unfold logs, call_value. cbn [flat_map]. rewrite M. destruct method; reflexivity.
Qed.
Lemma does_reduce : forall top stack tk rule sv log stack', (N.of_nat rule < 65536)%N -> cpp_reduce_stack c rule (top :: stack) = Ok stack' ->
  does P ext (mkStore (acting (ActReduce rule) (sy_ident top) tk (outer (top :: stack) [token_value tk])) (parser_members sv log)) act_stmt
    (mkStore (acting (ActReduce rule) (sy_ident top) tk (outer stack' [token_value tk])) (parser_members sv (logs [CallReduce rule] log))) RNext.
Proof.
  intros top stack tk rule sv log stack' L E. unfold act_stmt. eapply does_else; [reflexivity|reflexivity|]. eapply does_if; [reflexivity|reflexivity|].
  assert (M : exists method, numbered visits (N.of_nat rule) = Some method).
  { apply numbered_in. apply V. unfold cpp_reduce_stack in E. destruct (numbered (cx_reductions c) (N.of_nat rule)) as [x|] eqn:Q; [|discriminate]. apply numbered_get in Q. apply (in_map fst) in Q. exact Q. }
  destruct M as (method & M). destruct (calling_reduce rule (top :: stack) (acting (ActReduce rule) (sy_ident top) tk (outer (top :: stack) [token_value tk])) (parser_members sv log) (RReturn None) stack' eq_refl eq_refl L) as (moved & X); [rewrite E; reflexivity|rewrite E; reflexivity|].
  unfold block. eapply does_eq; [apply does_block; cbn [reduce_stmts stmts fold_right]| |reflexivity].
  - eapply runs_cons; [apply does_now; intros n; reflexivity|]. eapply runs_cons; [eapply does_call; exact X|]. eapply runs_cons; [|apply runs_nil]. eapply does_call. eapply calling_visitor; [reflexivity|exact L|exact M].
  - apply leave_one. reflexivity.
Qed.
Lemma does_reduce_stop : forall top stack tk rule sv log, (N.of_nat rule < 65536)%N -> cpp_reduce_stack c rule (top :: stack) = Err Terminated ->
  does P ext (mkStore (acting (ActReduce rule) (sy_ident top) tk (outer (top :: stack) [token_value tk])) (parser_members sv log)) act_stmt
    (mkStore (acting (ActReduce rule) (sy_ident top) tk (outer (top :: stack) [token_value tk])) (parser_members sv log)) RTerminate.
Proof.
  intros top stack tk rule sv log L E. unfold act_stmt. eapply does_else; [reflexivity|reflexivity|]. eapply does_if; [reflexivity|reflexivity|].
  destruct (calling_reduce rule (top :: stack) (acting (ActReduce rule) (sy_ident top) tk (outer (top :: stack) [token_value tk])) (parser_members sv log) RTerminate (top :: stack) eq_refl eq_refl L) as (moved & X); [rewrite E; reflexivity|rewrite E; reflexivity|].
  unfold block. eapply does_eq; [apply does_block; cbn [reduce_stmts stmts fold_right]| |reflexivity].
  - eapply runs_cons; [apply does_now; intros n; reflexivity|]. apply runs_stop; [|discriminate]. eapply does_call_stop; [exact X|discriminate].
  - apply leave_one. reflexivity.
Qed.

(** Up to the action. *)
Lemma runs_act : forall nf top stack tk s log ev x b r, fits (Datatypes.S nf) s -> small top -> (fst tk < 2 ^ 32)%N -> pull_act pull c (top :: stack) tk s = (ev, x) ->
  match x with
  | Ok (stack', tk', s') => exists a, forall b st' r, runs P ext (mkStore (acting a (sy_ident top) tk (outer stack' [token_value tk'])) (parser_members (state s') (logs ev log))) b st' r ->
      runs P ext (mkStore (outer (top :: stack) [token_value tk]) (parser_members (state s) log)) (stmts look_stmts (IStmt act_stmt b)) st' r
  | Err e => @void_ending unit (Err e) = Some r -> exists p, runs P ext (mkStore (outer (top :: stack) [token_value tk]) (parser_members (state s) log)) (stmts look_stmts (IStmt act_stmt b))
      (mkStore (p ++ outer (top :: stack) [token_value tk]) (parser_members (state s) (logs ev log))) r
  | _ => True
  end.
Proof.
  intros nf top stack tk s log ev x b r FT L1 L2 H. pose proof L1 as L1'. unfold small in L1'. unfold pull_act in H. assert (CH : forall b, stmts look_stmts (IStmt act_stmt b) = stmts (firstn 4 look_stmts) (stmts (skipn 4 look_stmts) (IStmt act_stmt b))) by reflexivity.
  pose proof (fun r0 => calling_action (sy_ident top) (fst tk) (looking (sy_ident top) tk (outer (top :: stack) [token_value tk])) (parser_members (state s) log) r0 eq_refl eq_refl L1') as CA.
  destruct (determine_action c (sy_ident top) (fst tk)) as [act|e| |] eqn:E; cbn [ending] in CA.
  - specialize (CA _ eq_refl). assert (DA : does P ext (mkStore (looking (sy_ident top) tk (outer (top :: stack) [token_value tk])) (parser_members (state s) log)) (SLet ["Action"] "action" (ECall (EName ["determine_action"]) [EName ["state"]; EName ["next_tk"]]))
      (mkStore (acting act (sy_ident top) tk (outer (top :: stack) [token_value tk])) (parser_members (state s) log)) RNext).
    { eapply does_eq; [eapply does_let_call; [exact CA|reflexivity|reflexivity|reflexivity]|reflexivity|reflexivity]. }
    destruct act as [|rule].
    + destruct (pull s) as [[tk' s']|] eqn:Q; injection H as <- <-; [|exact I]. exists ActShift. intros b' st' r' R. rewrite CH. apply runs_look; [exact L1|exact L2|]. eapply runs_cons; [exact DA|]. eapply runs_cons; [exact (does_shift nf top stack tk s log tk' s' FT Q)|]. exact R.
    + pose proof (determine_reduce _ _ _ E) as L. destruct (cpp_reduce_stack c rule (top :: stack)) as [stack'|e| |] eqn:Q; injection H as <- <-; [| |exact I|exact I].
      * exists (ActReduce rule). intros b' st' r' R. rewrite CH. apply runs_look; [exact L1|exact L2|]. eapply runs_cons; [exact DA|]. eapply runs_cons; [exact (does_reduce top stack tk rule (state s) log stack' L Q)|]. exact R.
      * intros B. assert (e = Terminated) as ->.
        { unfold cpp_reduce_stack in Q. destruct (numbered _ _) as [(n, nm)|]; [|congruence]. destruct (enum_value _ _); [|injection Q as <-; discriminate].
          assert (Y : forall n st, match pop_symbols n st with Err e => e = Undefined | _ => True end). { clear. induction n as [|n IH]; intros st; cbn; [exact I|]. destruct st as [|a [|b st]]; try reflexivity. apply IH. }
          specialize (Y n (top :: stack)). destruct (pop_symbols n (top :: stack)); cbn [bind] in Q; try discriminate. injection Q as <-. subst. discriminate. }
        injection B as <-. exists ([("action", action_value (ActReduce rule))] ++ looking (sy_ident top) tk []). rewrite CH. apply runs_look; [exact L1|exact L2|]. eapply runs_cons; [exact DA|]. apply runs_stop; [|discriminate]. exact (does_reduce_stop top stack tk rule (state s) log L Q).
  - injection H as <- <-. intros B. exists (looking (sy_ident top) tk []). rewrite CH. apply runs_look; [exact L1|exact L2|].
    assert (NR : r <> RNext /\ forall v, r <> RReturn v) by (destruct e; cbn in B; try discriminate; injection B as <-; split; discriminate).
    apply runs_stop; [|exact (proj1 NR)]. apply does_let_stop; [apply CA; destruct e; exact B|reflexivity|exact (proj2 NR)].
  - injection H as <- <-. exact I.
  - injection H as <- <-. exact I.
Qed.

(** From the action to the end of a round. *)
Lemma next_word : forall s sym t, retrieve_next_state c s sym = Ok t -> in_word (fst t).
Proof.
  intros s sym t H. unfold retrieve_next_state in H. rewrite numbered_find in H. destruct (find _ _) as [(q, (ts, nts))|] eqn:F; [|discriminate]. cbn [option_map snd] in H. apply find_some in F. destruct F as (J & _).
  destruct (wl_gotos c W q ts nts J) as (_ & T1 & T2). destruct (sy_kind sym); [rewrite switch_find in H; destruct (find _ ts) as [(l, x)|] eqn:F|rewrite switch_find in H; destruct (find _ nts) as [(l, x)|] eqn:F|]; try discriminate;
  cbn [option_map snd] in H; injection H as <-; apply find_some in F; [exact (proj2 (T1 l x (proj1 F)))|exact (proj2 (T2 l x (proj1 F)))].
Qed.
Lemma calling_goto : forall s sym l m r, find_name "stack_state" l = Some (VInt U32 (Z.of_N s)) -> find_name "current_symbol" l = Some (symbol_value sym) -> (s < 2 ^ 32)%N -> small sym -> ending (fun t => Some (transition_value t)) (retrieve_next_state c s sym) = Some r ->
  calling P ext (mkStore l m) (EName ["retrieve_next_state"]) [EName ["stack_state"]; EName ["current_symbol"]] (mkStore l m) r.
Proof.
  intros s sym l m r F1 F2 L1 L2 H. assert (NR : match r with RNext => RReturn None | _ => r end = r).
  { unfold ending in H. destruct (retrieve_next_state c s sym) as [x|[]| |]; try discriminate; injection H as <-; reflexivity. }
  rewrite <- NR. eapply (calling_function P ext _ _ _ goto_params (goto_body c)); [right; right; left; reflexivity|reflexivity| |exact (does_retrieve_next_state c the_functions source W C s sym m r L2 H)|reflexivity].
  cbn [pass goto_params eval locals]. rewrite F1, F2. cbn [passed type_name p_type]. rewrite convert_u32 by lia. reflexivity.
Qed.
Lemma eval_below : forall x y stack l m, find_name "parse_stack" l = Some (stack_value (x :: y :: stack)) -> (Z.of_nat (List.length stack) + 2 < 18446744073709551616)%Z ->
  eval P (mkStore l m) (EField (call "parse_stack" "at" [ESub (call "parse_stack" "size" []) (ENum 2)]) "identifier") = Some (VInt U32 (Z.of_N (sy_ident y))).
Proof.
  intros x y stack l m F L. unfold call.
  change (eval P (mkStore l m) (EField (ECall (EField (EName ["parse_stack"]) "at") [ESub (ECall (EField (EName ["parse_stack"]) "size") []) (ENum 2)]) "identifier")) with
    (match (match eval P (mkStore l m) (EName ["parse_stack"]), (match (match eval P (mkStore l m) (EName ["parse_stack"]) with Some (VVec l) => Some (VInt U64 (Z.of_nat (List.length l))) | _ => None end), Some (VInt I32 2) with
       | Some (VInt s x), Some (VInt t y) => Some (VInt (common s t) (wrap (common s t) (x - y))) | _, _ => None end) with
     | Some (VVec l), Some (VInt U64 k) => if (k <? Z.of_nat (List.length l))%Z then nth_error l (List.length l - 1 - Z.to_nat k) else None | _, _ => None end) with Some (VRec _ fs) => find_name "identifier" fs | _ => None end).
  cbn [eval locals]. rewrite F. unfold stack_value. change (common U64 I32) with U64. cbv iota beta. rewrite map_length. cbn [List.length map]. rewrite wrap_u64 by lia.
  replace (Z.of_nat (Datatypes.S (Datatypes.S (List.length stack))) - 2)%Z with (Z.of_nat (List.length stack)) by lia. replace (Z.of_nat (List.length stack) <? Z.of_nat (Datatypes.S (Datatypes.S (List.length stack))))%Z with true by (symmetry; apply Z.ltb_lt; lia).
  replace (Datatypes.S (Datatypes.S (List.length stack)) - 1 - Z.to_nat (Z.of_nat (List.length stack)))%nat with 1%nat by lia. reflexivity.
Qed.
Lemma runs_next : forall act s tk stack q m r, Forall small stack -> (Z.of_nat (List.length stack) < 18446744073709551616)%Z ->
  match cpp_goto c stack with
  | Ok stack' => exists p, runs P ext (mkStore (acting act s tk (outer stack q)) m) (stmts (next_stmts ++ [move_stmt]) INil) (mkStore (p ++ outer stack' q) m) RNext
  | Err e => @void_ending unit (Err e) = Some r -> exists p, runs P ext (mkStore (acting act s tk (outer stack q)) m) (stmts (next_stmts ++ [move_stmt]) INil) (mkStore (p ++ outer stack q) m) r
  | _ => True
  end.
Proof.
  intros act s tk stack q m r F L. destruct stack as [|x [|y stack]]; try (cbn; discriminate). inversion F as [|? ? S1 F']. inversion F' as [|? ? S2 _]. subst. cbn [cpp_goto].
  set (p1 := [("stack_state", VInt U32 (Z.of_N (sy_ident y))); ("current_symbol", symbol_value x)] ++ acting act s tk []).
  assert (R1 : forall b st' r, runs P ext (mkStore (p1 ++ outer (x :: y :: stack) q) m) b st' r -> runs P ext (mkStore (acting act s tk (outer (x :: y :: stack) q)) m) (stmts (firstn 2 next_stmts) b) st' r).
  { intros b st' r0 H. cbn [next_stmts firstn stmts fold_right]. eapply runs_cons; [eapply (does_let _ _ _ ["Symbol"]); [intros n; reflexivity|reflexivity|reflexivity]|].
    eapply runs_cons; [|exact H]. eapply does_eq; [eapply (does_let _ _ _ ["uint32_t"] "stack_state" _ (VInt U32 (Z.of_N (sy_ident y)))); [|reflexivity|]|reflexivity|reflexivity].
    - intros n. cbn [exec_value]. unfold declare. cbn [locals members]. rewrite (eval_below x y stack); [reflexivity|reflexivity|]. cbn [List.length] in L. lia.
    - cbv iota beta. apply convert_u32. unfold small in S2. lia. }
  pose proof (fun r0 => calling_goto (sy_ident y) x (p1 ++ outer (x :: y :: stack) q) m r0 eq_refl eq_refl S2 S1) as CG.
  change (stmts (next_stmts ++ [move_stmt]) INil) with (stmts (firstn 2 next_stmts) (stmts (skipn 2 next_stmts ++ [move_stmt]) INil)).
  destruct (retrieve_next_state c (sy_ident y) x) as [(next, acc)|e| |] eqn:E; cbn [bind ending] in *; [| |exact I|exact I].
  - specialize (CG _ eq_refl). pose proof (next_word _ _ _ E) as NW. cbn [fst] in NW. unfold in_word in NW. set (p2 := ("transition", transition_value (next, acc)) :: p1).
    assert (R2 : does P ext (mkStore (p1 ++ outer (x :: y :: stack) q) m) (SLet ["Transition"] "transition" (ECall (EName ["retrieve_next_state"]) [EName ["stack_state"]; EName ["current_symbol"]])) (mkStore (p2 ++ outer (x :: y :: stack) q) m) RNext).
    { eapply does_eq; [eapply does_let_call; [exact CG|reflexivity|reflexivity|reflexivity]|reflexivity|reflexivity]. }
    exists p2. apply R1. eapply runs_cons; [exact R2|]. eapply runs_cons; [|apply runs_nil]. unfold move_stmt. destruct acc.
    + eapply does_if; [reflexivity|reflexivity|]. unfold block. eapply does_eq; [apply does_block; cbn [stmts fold_right]|apply leave_same; reflexivity|reflexivity].
      eapply runs_cons; [apply (ev_const _ 3); intros n; reflexivity|]. eapply runs_cons; [apply (ev_const _ 3); intros n; reflexivity|apply runs_nil].
    + eapply does_else; [reflexivity|reflexivity|]. unfold block. eapply does_eq; [apply does_block; cbn [stmts fold_right]| |reflexivity].
      * eapply runs_cons; [eapply (does_init P ext _ ["Symbol"]); [reflexivity|reflexivity|]|eapply runs_cons; [apply (ev_const _ 4); intros n; reflexivity|apply runs_nil]].
        instantiate (1 := [("kind", kind_value KindState); ("identifier", VInt U32 (Z.of_N (N.of_nat next)))]). cbn [init_fields].
        change (eval P _ (EName ["SymbolKind"; "State"])) with (Some (VEnum "SymbolKind" 2)). change (eval P _ (EField (EName ["transition"]) "next_state")) with (Some (VInt U32 (Z.of_nat next))). cbv iota beta.
        change (exact "uint32_t" (VInt U32 (Z.of_nat next))) with (if (wrap U32 (Z.of_nat next) =? Z.of_nat next)%Z then Some (VInt U32 (wrap U32 (Z.of_nat next))) else None).
        rewrite !wrap_u32 by lia. rewrite Z.eqb_refl, nat_N_Z. reflexivity.
      * apply leave_one. reflexivity.
  - intros B. assert (NR : r <> RNext /\ forall v, r <> RReturn v) by (destruct e; cbn in B; try discriminate; injection B as <-; split; discriminate).
    exists p1. apply R1. apply runs_stop; [|exact (proj1 NR)]. apply does_let_stop; [apply CG; destruct e; exact B|reflexivity|exact (proj2 NR)].
Qed.
Lemma goto_small : forall stack stack', cpp_goto c stack = Ok stack' -> Forall small stack -> Forall small stack' /\ (List.length stack' <= Datatypes.S (List.length stack))%nat.
Proof.
  intros stack stack' H F. destruct stack as [|x [|y stack]]; try discriminate. cbn [cpp_goto] in H. destruct (retrieve_next_state c (sy_ident y) x) as [(next, acc)| | |] eqn:E; cbn [bind] in H; try discriminate. injection H as <-. apply next_word in E. destruct acc.
  - inversion F as [|? ? _ F']. inversion F'. subst. split; [assumption|cbn; lia].
  - split; [constructor; [exact E|exact F]|cbn; lia].
Qed.

(** One round. *)
Lemma logs_app : forall a b log, logs (a ++ b) log = logs b (logs a log).
Proof. intros a b log. unfold logs. rewrite flat_map_app, rev_app_distr, app_assoc. reflexivity. Qed.
Lemma eval_some_left : forall stack q m, (Z.of_nat (List.length stack) < 18446744073709551616)%Z -> eval P (mkStore (outer stack q) m) some_left = Some (VInt Bool (match stack with [] => 0 | _ => 1 end)).
Proof.
  intros stack q m L. unfold some_left, call. change (eval P (mkStore (outer stack q) m) (ELess (ENum 0) (ECall (EField (EName ["parse_stack"]) "size") []))) with (the_bool (Some (Z.ltb (wrap U64 0) (wrap U64 (Z.of_nat (List.length (map symbol_value stack))))))).
  rewrite map_length, !wrap_u64 by lia. destruct stack; [reflexivity|]. cbn [List.length]. replace (0 <? Z.of_nat (Datatypes.S (List.length stack)))%Z with true by (symmetry; apply Z.ltb_lt; lia). reflexivity.
Qed.
Lemma does_loop_parse : forall fuel stack tk s log ev x r, fits fuel s -> Forall small stack -> (fst tk < 2 ^ 32)%N -> (Z.of_nat (List.length stack) + 2 * Z.of_nat fuel < 18446744073709551616)%Z ->
  pull_run pull fuel c stack tk s = (ev, x) -> void_ending x = Some r ->
  exists stack' q sv, does P ext (mkStore (outer stack [token_value tk]) (parser_members (state s) log)) (SWhile some_left round) (mkStore (outer stack' q) (parser_members sv (logs ev log))) r /\ match x with Ok s' => sv = state s' | _ => True end.
Proof.
  induction fuel as [|fuel IH]; intros stack tk s log ev x r FT F L B H E; [injection H as <- <-; discriminate|]. cbn [pull_run] in H. destruct stack as [|top stack].
  - injection H as <- <-. injection E as <-. exists [], [token_value tk], (state s). split; [|reflexivity]. eapply does_done; [apply eval_some_left; cbn; lia|reflexivity].
  - destruct (pull_act pull c (top :: stack) tk s) as [ev1 x1] eqn:A0. pose proof (fun b => runs_act fuel top stack tk s log ev1 x1 b r FT (Forall_inv F) L A0) as R.
    assert (T : eval P (mkStore (outer (top :: stack) [token_value tk]) (parser_members (state s) log)) some_left = Some (VInt Bool 1)) by (apply eval_some_left; cbn [List.length] in *; lia).
    assert (STOP : forall e p stack' q sv ev', @void_ending unit (Err e) = Some r -> runs P ext (mkStore (outer (top :: stack) [token_value tk]) (parser_members (state s) log)) (stmts (look_stmts ++ act_stmt :: next_stmts ++ [move_stmt]) INil) (mkStore (p ++ outer stack' q) (parser_members sv (logs ev' log))) r ->
      does P ext (mkStore (outer (top :: stack) [token_value tk]) (parser_members (state s) log)) (SWhile some_left round) (mkStore (outer stack' q) (parser_members sv (logs ev' log))) r).
    { intros e p stack' q sv ev' B' R'. eapply does_leave; [exact T|reflexivity| |destruct e; cbn in B'; try discriminate; injection B' as <-; discriminate|destruct e; cbn in B'; try discriminate; injection B' as <-; discriminate].
      unfold round, block. eapply does_eq; [apply does_block; exact R'|apply leave_app; reflexivity|reflexivity]. }
    change (stmts (look_stmts ++ act_stmt :: next_stmts ++ [move_stmt]) INil) with (stmts look_stmts (IStmt act_stmt (stmts (next_stmts ++ [move_stmt]) INil))) in STOP.
    destruct x1 as [((stack1, tk1), s1)|e| |].
    + destruct (act_small _ _ _ _ _ _ _ _ A0 FT F L) as (F1 & L1 & FT1 & B1). assert (BB : (Z.of_nat (List.length stack1) < 18446744073709551616)%Z) by (cbn [List.length] in *; lia).
      destruct (cpp_goto c stack1) as [stack2|e| |] eqn:G.
      * destruct (pull_run pull fuel c stack2 tk1 s1) as [ev2 x2] eqn:Q. injection H as <- <-. destruct (goto_small _ _ G F1) as (F2 & B2).
        destruct (IH stack2 tk1 s1 (logs ev1 log) ev2 x2 r FT1 F2 L1 ltac:(cbn [List.length] in *; lia) Q E) as (stack' & q & sv & D0 & M). exists stack', q, sv. split; [|exact M]. rewrite logs_app. eapply does_turn; [exact T|reflexivity| |exact D0].
        unfold round, block. change (stmts (look_stmts ++ act_stmt :: next_stmts ++ [move_stmt]) INil) with (stmts look_stmts (IStmt act_stmt (stmts (next_stmts ++ [move_stmt]) INil))).
        destruct (R INil) as (act & R'). pose proof (runs_next act (sy_ident top) tk stack1 [token_value tk1] (parser_members (state s1) (logs ev1 log)) RNext F1 BB) as RN. rewrite G in RN. destruct RN as (p & RN).
        eapply does_eq; [apply does_block; apply R'; exact RN|apply leave_app; reflexivity|reflexivity].
      * injection H as <- <-. destruct (R INil) as (act & R'). pose proof (runs_next act (sy_ident top) tk stack1 [token_value tk1] (parser_members (state s1) (logs ev1 log)) r F1 BB) as RN. rewrite G in RN.
        destruct (RN E) as (p & RN'). exists stack1, [token_value tk1], (state s1). split; [|exact I]. exact (STOP e p _ _ _ _ E (R' _ _ _ RN')).
      * injection H as <- <-. discriminate.
      * injection H as <- <-. discriminate.
    + injection H as <- <-. destruct (R (stmts (next_stmts ++ [move_stmt]) INil) E) as (p & R'). exists (top :: stack), [token_value tk], (state s). split; [|exact I]. exact (STOP e p _ _ _ _ E R').
    + injection H as <- <-. discriminate.
    + injection H as <- <-. discriminate.
Qed.

(** The whole function. *)
Lemma does_parse : forall fuel s log ev x r, fits (Datatypes.S fuel) s -> (Z.of_nat fuel < 9223372036854775807)%Z -> pull_parse pull fuel c s = (ev, x) -> void_ending x = Some r ->
  exists sv, does P ext (mkStore [] (parser_members (state s) log)) (parse_body (cx_entry c)) (mkStore [] (parser_members sv (logs ev log))) r /\ match x with Ok s' => sv = state s' | _ => True end.
Proof.
  intros fuel s log ev x r FT B H E. unfold pull_parse in H. pose proof (proj2 U fuel s FT) as X. destruct (pull s) as [[tk s']|] eqn:Q; [|injection H as <- <-; discriminate]. destruct tk as (k, d). destruct X as (_ & L & FT').
  destruct (wl_sizes c W) as (_ & _ & LE). unfold in_word in LE.
  destruct (does_loop_parse fuel [entry] (k, d) s' log ev x r) as (stack' & q & sv & D0 & M); [exact FT'|constructor; [exact LE|constructor]|exact L|cbn [List.length]; lia|exact H|exact E|]. exists sv. split; [|exact M].
  unfold parse_body, block. eapply does_eq; [apply does_block; cbn [stmts fold_right]| |reflexivity].
  - eapply runs_cons; [apply does_now; intros n; reflexivity|]. eapply runs_cons; [eapply (does_fetch fuel); [exact FT|reflexivity|exact Q]|]. eapply runs_cons; [apply does_now; intros n; reflexivity|].
    eapply runs_cons; [eapply (does_init P ext _ ["Symbol"]); [reflexivity|reflexivity|]|].
    { instantiate (1 := [("kind", kind_value KindState); ("identifier", VInt U32 (Z.of_N (N.of_nat (cx_entry c))))]). cbn [init_fields]. change (eval P _ (EName ["SymbolKind"; "State"])) with (Some (VEnum "SymbolKind" 2)).
      change (eval P _ (ECast ["uint32_t"] (ENum (Z.of_nat (cx_entry c))))) with (match literal (Z.of_nat (cx_entry c)) with VInt _ z => Some (VInt U32 (wrap U32 z)) | VEnum _ z => Some (VInt U32 (wrap U32 z)) | _ => None end).
      destruct (literal_int (Z.of_nat (cx_entry c))) as (t & ->). rewrite wrap_u32 by lia. cbv iota beta.
      change (exact "uint32_t" (VInt U32 (Z.of_nat (cx_entry c)))) with (if (wrap U32 (Z.of_nat (cx_entry c)) =? Z.of_nat (cx_entry c))%Z then Some (VInt U32 (wrap U32 (Z.of_nat (cx_entry c)))) else None).
      rewrite !wrap_u32 by lia. rewrite Z.eqb_refl, nat_N_Z. reflexivity. }
    eapply runs_cons; [apply (ev_const _ 4); intros n; reflexivity|]. destruct r as [| | | |]; [eapply runs_cons; [exact D0|apply runs_nil]|..]; (apply runs_stop; [exact D0|discriminate]).
  - exact (leave_app [] (outer stack' q) [] _ _ eq_refl).
Qed.
End Parse.
