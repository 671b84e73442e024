(** Proofs about what the functions in the text of emitted C++ LR parsers do: [determine_action], [retrieve_next_state], [reduce_stack] and [reduce_visitor]. *)
From Coq Require Import String Ascii List Arith NArith ZArith Bool Lia.
From Verif Require Import Base GrammarModel LRModel NamesModel CppLexerModel CppLexerProof CppLRModel TemplateModel TemplateFiles CppTextModel CppTextSpec CppTextProof CppLexTextSpec CppLexTextProof CppLexRunProof CppLRTextModel CppLRTextSpec CppCaseProof CppLRTextProof CppLRCheckProof.
Import ListNotations.
Local Open Scope string_scope.
Local Open Scope list_scope.

(** ** Switches *)

Lemma taken : forall {A} P (f : A -> expr * list stmt) (hit : A -> bool) l b v, (forall a, In a l -> in_label P v (fst (f a)) (fst (f a)) = Some (hit a)) -> at_case P v b = Some None ->
  match find hit l with
  | Some a => exists rest, at_case P v (case_items (map f l) b) = Some (Some (stmts (snd (f a)) rest))
  | None => at_case P v (case_items (map f l) b) = Some None
  end.
Proof.
  intros A P f hit. induction l as [|a l IH]; intros b v H K; [exact K|]. pose proof (H a (or_introl eq_refl)) as HA. cbn [find map]. destruct (f a) as (e, ss) eqn:F. cbn [case_items at_case fst snd] in *. rewrite HA.
  destruct (hit a) eqn:Q.
  - rewrite F. eexists. reflexivity.
  - rewrite stmts_at_case. apply IH; [|exact K]. intros x J. apply H. right. exact J.
Qed.
Lemma chosen : forall {A} P (f : A -> expr * list stmt) (hit : A -> bool) l d v, (forall a, In a l -> in_label P v (fst (f a)) (fst (f a)) = Some (hit a)) -> at_case P v d = Some None ->
  match find hit l with
  | Some a => exists rest, selected P v (case_items (map f l) (IDefault d)) = Some (stmts (snd (f a)) rest)
  | None => selected P v (case_items (map f l) (IDefault d)) = Some d
  end.
Proof.
  intros A P f hit l d v H K. pose proof (taken P f hit l (IDefault d) v H K) as X. unfold selected. destruct (find hit l) as [a|].
  - destruct X as (rest & ->). exists rest. reflexivity.
  - rewrite X, case_default. reflexivity.
Qed.
Lemma numbered_find : forall {A} (l : list (nat * A)) v, numbered l v = option_map snd (find (fun a => Z.eqb (Z.of_N v) (Z.of_N (N.of_nat (fst a)))) l).
Proof.
  intros A l v. induction l as [|(q, a) l IH]; [reflexivity|]. cbn [numbered find fst]. destruct (N.eqb_spec (N.of_nat q) v) as [E|E].
  - replace (Z.of_N v =? Z.of_N (N.of_nat q))%Z with true; [reflexivity|]. symmetry. apply Z.eqb_eq. lia.
  - replace (Z.of_N v =? Z.of_N (N.of_nat q))%Z with false; [exact IH|]. symmetry. apply Z.eqb_neq. lia.
Qed.
Definition is_label (value : label -> option N) (v : N) (l : label) : bool := match value l with Some w => Z.eqb (Z.of_N v) (Z.of_N w) | None => false end.
Lemma switch_find : forall {A} value (l : list (label * A)) v, switch value l v = option_map snd (find (fun a => is_label value v (fst a)) l).
Proof.
  intros A value l v. induction l as [|(x, a) l IH]; [reflexivity|]. cbn [switch find fst]. unfold is_label at 1. destruct (value x) as [w|].
  - destruct (Z.eqb_spec (Z.of_N v) (Z.of_N w)) as [E|E].
    + assert (w = v) by lia. subst w. rewrite eqc_refl. reflexivity.
    + destruct (eqc (Some w) (Some v)) eqn:Q; [|exact IH]. apply eqc_true in Q. injection Q as ->. congruence.
  - destruct (eqc (@None N) (Some v)) eqn:Q; [|exact IH]. apply eqc_true in Q. discriminate.
Qed.

(** ** Stores *)

Lemma leave_self : forall st, leave st st = st.
Proof. intros [l m]. unfold leave. cbn. rewrite Nat.sub_diag. reflexivity. Qed.
(** The same variables with other values. *)
Lemma leave_same : forall l l' m m', List.length l = List.length l' -> leave (mkStore l m) (mkStore l' m') = mkStore l' m'.
Proof. intros l l' m m' H. unfold leave. cbn. rewrite H, Nat.sub_diag. reflexivity. Qed.
Lemma leave_one : forall l x l' m m', List.length l = List.length l' -> leave (mkStore l m) (mkStore (x :: l') m') = mkStore l' m'.
Proof. intros l x l' m m' H. unfold leave. cbn [locals members List.length]. rewrite H. replace (S (List.length l') - List.length l')%nat with 1%nat by lia. reflexivity. Qed.

Section Does.
Variables (P : program) (ext : externals).
Lemma does_last : forall st s st' r, does P ext st s st' r -> r <> RNext -> does P ext st (block [s]) (leave st st') r.
Proof. intros st s st' r H N. apply does_block. cbn [stmts fold_right]. apply runs_stop; assumption. Qed.
Lemma does_init : forall st t x args t' fs l, type_name t = Some t' -> find_name t' (structs P) = Some fs -> init_fields P st fs args = Some l -> does P ext st (SInit t x args) (declare st x (VRec t' l)) RNext.
Proof. intros st t x args t' fs l A B D. apply does_now. intros n. cbn [exec]. rewrite A, B, D. reflexivity. Qed.
Lemma does_terminate : forall st, does P ext st terminate st RTerminate.
Proof. intros st. apply (ev_const _ 2). reflexivity. Qed.
Lemma runs_terminate : forall st b, runs P ext st (IStmt terminate b) st RTerminate.
Proof. intros st b. apply runs_stop; [apply does_terminate|discriminate]. Qed.
(** A switch whose cases do not fall through. *)
Lemma does_choice : forall {A} st e v (f : A -> expr * list stmt) (hit : A -> bool) l d st' r, eval P st e = Some v -> (forall a, In a l -> in_label P v (fst (f a)) (fst (f a)) = Some (hit a)) -> at_case P v d = Some None ->
  r <> RBreak -> match find hit l with Some a => forall rest, runs P ext st (stmts (snd (f a)) rest) st' r | None => runs P ext st d st' r end -> does P ext st (SSwitch e (case_items (map f l) (IDefault d))) (leave st st') r.
Proof.
  intros A st e v f hit l d st' r E H K B R. pose proof (chosen P f hit l d v H K) as X. replace r with (match r with RBreak => RNext | _ => r end) by (destruct r; reflexivity || congruence).
  destruct (find hit l) as [a|].
  - destruct X as (rest & X). exact (does_switch P ext st e v _ _ st' r E X (R rest)).
  - exact (does_switch P ext st e v _ _ st' r E X R).
Qed.
End Does.

Section Functions.
Variables (c : cpp_lr) (fs : list (string * (list param * stmt))) (pull : value -> option (value * value)).
Notation P := (lr_program (enumerators (cx_names c)) (cx_nts c) fs).
Notation ext := (outside P (cx_names c) pull).
Hypothesis (W : writable_lr c) (C : cpp_compiles c) (T : find_name "throw_unexpected_token_error" fs = None).

Lemma state_label : forall {A} (f : nat * A -> expr * list stmt) (l : list (nat * A)) t v a, (forall a, In a l -> fst (f a) = ENum (Z.of_nat (fst a)) /\ in_word (fst a)) -> In a l ->
  in_label P (VInt t (Z.of_N v)) (fst (f a)) (fst (f a)) = Some (Z.eqb (Z.of_N v) (Z.of_N (N.of_nat (fst a)))).
Proof. intros A f l t v a H J. destruct (H a J) as (-> & L). apply in_label_bounds. apply number_bounds. exact L. Qed.
Lemma token_hit : forall l v, token_case l -> token_label c l <> None -> in_label P (VEnum "TokenType" (Z.of_N v)) (label_expr l) (label_expr l) = Some (is_label (token_label c) v l).
Proof.
  intros l v T0 N0. pose proof (token_bounds c fs l T0) as B. unfold is_label. destruct (token_label c l) as [w|]; [|congruence]. apply in_enum_bounds. exact B.
Qed.
Lemma nt_hit : forall l v, nt_case l -> nt_label c l <> None -> in_label P (VEnum "NonTerminalType" (Z.of_N v)) (label_expr l) (label_expr l) = Some (is_label (nt_label c) v l).
Proof.
  intros l v T0 N0. pose proof (nt_bounds c fs l T0) as B. unfold is_label. destruct (nt_label c l) as [w|]; [|congruence]. apply in_enum_bounds. exact B.
Qed.

Lemma enum_value_bound : forall v s, enum_value (cx_nts c) s = Some v -> (v < 2 ^ 32)%N.
Proof.
  intros v s E. unfold enum_value in E. destruct (find_index (String.eqb s) (cx_nts c)) as [k|] eqn:F; [|discriminate]. injection E as <-. destruct (wl_sizes c W) as (_ & L & _).
  assert (B : (k < List.length (cx_nts c))%nat); [|lia]. clear - F. revert k F. induction (cx_nts c) as [|x l IH]; intros k F; [discriminate|]. cbn in F. destruct (String.eqb s x); [injection F as <-; cbn; lia|].
  destruct (find_index (String.eqb s) l) as [j|]; [|discriminate]. injection F as <-. specialize (IH j eq_refl). cbn. lia.
Qed.

(** ** [determine_action] *)

Lemma does_action : forall st a, action_fits a -> does P ext st (action_stmt a) st (RReturn (Some (action_value a))).
Proof.
  intros [l m] a F. unfold action_stmt. eapply does_eq; [apply does_block; cbn [stmts fold_right]; eapply (runs_cons _ _ _ _ (mkStore (("act", action_value a) :: l) m))| |reflexivity].
  - eapply does_eq; [eapply (does_init P ext (mkStore l m) ["Action"] "act"); [reflexivity|reflexivity|]| |reflexivity].
    + instantiate (1 := [("action_type", VEnum "ActionType" (match a with ActShift => 0 | ActReduce _ => 1 end)); ("reduced_rule", VInt U16 (match a with ActShift => 0 | ActReduce k => Z.of_nat k end))]).
      destruct a as [|k]; [reflexivity|]. cbn [action_fits] in F. cbn [init_fields].
      change (eval P (mkStore l m) (EName ["ActionType"; "Reduce"])) with (Some (VEnum "ActionType" 1)). change (eval P (mkStore l m) (ENum (Z.of_nat k))) with (Some (literal (Z.of_nat k))). cbv iota beta.
      rewrite exact_u16. replace (N.of_nat k <? 65536)%N with true by (symmetry; apply N.ltb_lt; exact F). reflexivity.
    + destruct a; reflexivity.
  - apply runs_stop; [|discriminate]. apply does_now. intros n. reflexivity.
  - apply leave_one. reflexivity.
Qed.
Lemma token_word_ok : forall ex tk m, throw_unexpected_token_error c ex tk = Throw m -> exists name, token_word (cx_names c) (Z.of_N tk) = Some name /\ m = ("Unexpected token '" ++ name ++ "', expected one of: " ++ ex)%string.
Proof.
  intros ex tk m H. unfold throw_unexpected_token_error in H. destruct (nth_error (enumerators (cx_names c)) (N.to_nat tk)) as [e|] eqn:E; [|discriminate].
  destruct (CppLexerModel.get_token_name (cx_names c) e) as [name|] eqn:G; [|discriminate]. injection H as <-. exists name. split; [|reflexivity].
  unfold token_word. replace (Z.of_N tk <? 0)%Z with false by (symmetry; apply Z.ltb_ge; lia). rewrite Z_N_nat, Nat2Z.id || (replace (Z.to_nat (Z.of_N tk)) with (N.to_nat tk) by lia).
  destruct (token_names_ok _ (cc_tokens c C)) as (G0 & G1 & GN). unfold enumerators in E. destruct (N.to_nat tk) as [|[|k]]; cbn [nth_error] in E |- *.
  - injection E as <-. rewrite G0 in G. exact G.
  - injection E as <-. rewrite G1 in G. exact G.
  - rewrite nth_error_map in E. destruct (nth_error (cx_names c) k) as [x|] eqn:X; [|discriminate]. injection E as <-. rewrite (GN x (nth_error_In _ _ X)) in G. injection G as <-. reflexivity.
Qed.
Lemma does_throw : forall l m ex tk msg, find_name "lookahead_token" l = Some (VEnum "TokenType" (Z.of_N tk)) -> throw_unexpected_token_error c ex tk = Throw msg -> does P ext (mkStore l m) (throw_stmt ex) (mkStore l m) (RThrow msg).
Proof.
  intros l m ex tk msg F H. destruct (token_word_ok ex tk msg H) as (name & N0 & ->). apply (ev_const _ 3). intros n. cbn [Nat.add exec exec_call throw_stmt functions lr_program]. rewrite T.
  cbn [outside eval locals]. rewrite F. change (String.eqb "TokenType" "TokenType") with true. cbn [outside]. rewrite N0. reflexivity.
Qed.
Lemma does_determine_action : forall s tk m r, ending (fun a => Some (action_value a)) (determine_action c s tk) = Some r ->
  let st := mkStore [("state", VInt U32 (Z.of_N s)); ("lookahead_token", VEnum "TokenType" (Z.of_N tk))] m in does P ext st (action_body c) st r.
Proof.
  intros s tk m r H st. unfold determine_action in H. rewrite numbered_find in H. unfold action_body.
  assert (NR : r <> RNext /\ r <> RBreak).
  { destruct (find _ _) as [(q, (cases, ex))|]; cbn [option_map snd] in H; [|injection H as <-; split; discriminate]. destruct (switch _ _ _); [injection H as <-; split; discriminate|].
    destruct (throw_unexpected_token_error c ex tk); cbn in H; try discriminate; injection H as <-; split; discriminate. }
  eapply does_eq; [eapply does_last; [|exact (proj1 NR)]| |reflexivity].
  2:{ apply leave_self. }
  eapply does_eq; [eapply (does_choice _ _ st _ (VInt U32 (Z.of_N s)) action_state_of); [reflexivity| |reflexivity|exact (proj2 NR)|]|apply leave_self|reflexivity].
  - intros a J. apply (state_label action_state_of (cx_actions c)); [|exact J]. intros (q, (cases, ex)) K. split; [reflexivity|exact (proj1 (wl_actions c W q cases ex K))].
  - cbn beta. destruct (find (fun a => Z.eqb (Z.of_N s) (Z.of_N (N.of_nat (fst a)))) (cx_actions c)) as [(q, (cases, ex))|] eqn:F; cbn [option_map snd] in H.
    2:{ injection H as <-. apply runs_terminate. }
    intros rest. apply find_some in F. destruct F as (J & _). cbn [action_state_of snd fst stmts fold_right]. apply runs_stop; [|exact (proj1 NR)].
    eapply does_eq; [eapply does_last; [|exact (proj1 NR)]|apply leave_self|reflexivity]. unfold action_switch. destruct (cc_actions c C q cases ex J) as ((LK & _) & FT). destruct (wl_actions c W q cases ex J) as (_ & _ & TC).
    rewrite switch_find in H. eapply does_eq; [eapply (does_choice _ _ st _ (VEnum "TokenType" (Z.of_N tk)) action_case_of (fun a => is_label (token_label c) tk (fst a))); [reflexivity| |reflexivity|exact (proj2 NR)|]|apply leave_self|reflexivity].
    + intros (l, a) K. exact (token_hit l tk (TC l a K) (LK l a K)).
    + destruct (find (fun a => is_label (token_label c) tk (fst a)) cases) as [(l, a)|] eqn:F; cbn [option_map snd] in H.
      * intros rest'. cbn [action_case_of snd fst stmts fold_right]. injection H as <-. apply find_some in F. destruct F as (K & _). apply runs_stop; [|discriminate]. apply does_action. exact (FT l a K).
      * destruct (throw_unexpected_token_error c ex tk) as [msg| | |] eqn:E; cbn in H; try discriminate.
        -- injection H as <-. apply runs_stop; [|discriminate]. apply (does_throw _ _ ex tk msg); [reflexivity|exact E].
        -- exfalso. unfold throw_unexpected_token_error in E. destruct (nth_error _ _); [destruct (CppLexerModel.get_token_name _ _)|]; discriminate.
Qed.

(** ** [retrieve_next_state] *)

Lemma does_transition : forall st t, in_word (fst t) -> does P ext st (goto_stmt t) st (RReturn (Some (transition_value t))).
Proof.
  intros [l m] (k, acc) L. cbn [fst] in L. unfold goto_stmt. cbn [fst snd]. eapply does_eq; [apply does_block; cbn [stmts fold_right]; eapply (runs_cons _ _ _ _ (mkStore (("transition", transition_value (k, acc)) :: l) m))| |reflexivity].
  - eapply does_eq; [eapply (does_init P ext (mkStore l m) ["Transition"] "transition"); [reflexivity|reflexivity|]| |reflexivity].
    + instantiate (1 := [("next_state", VInt U32 (if acc then 0 else Z.of_nat k)); ("is_accepting", VInt Bool (if acc then 1 else 0))]). destruct acc; [reflexivity|]. cbn [init_fields].
      change (eval P (mkStore l m) (EBool false)) with (Some (VInt Bool 0)). change (eval P (mkStore l m) (ENum (Z.of_nat k))) with (Some (literal (Z.of_nat k))). cbv iota beta.
      rewrite (exact_u32 k L). reflexivity.
    + reflexivity.
  - apply runs_stop; [|discriminate]. apply does_now. intros n. reflexivity.
  - apply leave_one. reflexivity.
Qed.
Lemma does_goto_switch : forall ns t value cases s sym m r, let st := mkStore [("state", VInt U32 s); ("current_symbol", symbol_value sym)] m in
  (forall x, eval P st (ECast [ns; t] x) = match eval P st x with Some (VInt _ z) => Some (VEnum t (wrap U32 z)) | Some (VEnum _ _) => None | _ => None end) -> (sy_ident sym < 2 ^ 32)%N ->
  (forall l x, In (l, x) cases -> in_label P (VEnum t (Z.of_N (sy_ident sym))) (label_expr l) (label_expr l) = Some (is_label value (sy_ident sym) l) /\ in_word (fst x)) ->
  ending (fun t => Some (transition_value t)) (match switch value cases (sy_ident sym) with Some t => Ok t | None => Err Terminated end) = Some r -> r <> RNext -> r <> RBreak ->
  does P ext st (block [goto_switch ns t cases]) st r.
Proof.
  intros ns t value cases s sym m r st EV L H E N1 N2. eapply does_eq; [eapply does_last; [|exact N1]|apply leave_self|reflexivity]. unfold goto_switch.
  eapply does_eq; [eapply (does_choice _ _ st _ (VEnum t (Z.of_N (sy_ident sym))) goto_case_of (fun a => is_label value (sy_ident sym) (fst a))); [| |reflexivity|exact N2|]|apply leave_self|reflexivity].
  - rewrite EV. change (eval P st (EField (EName ["current_symbol"]) "identifier")) with (Some (VInt U32 (Z.of_N (sy_ident sym)))). cbn beta iota. rewrite wrap_u32 by lia. reflexivity.
  - intros (l, x) J. exact (proj1 (H l x J)).
  - rewrite switch_find in E. unfold transition in *. destruct (find (fun a => is_label value (sy_ident sym) (fst a)) cases) as [(l, x)|] eqn:F; cbn [option_map snd ending] in E; injection E as <-.
    + intros rest. cbn [goto_case_of snd fst stmts fold_right]. apply find_some in F. apply runs_stop; [|discriminate]. apply does_transition. exact (proj2 (H l x (proj1 F))).
    + apply runs_terminate.
Qed.
Lemma does_retrieve_next_state : forall s sym m r, (sy_ident sym < 2 ^ 32)%N -> ending (fun t => Some (transition_value t)) (retrieve_next_state c s sym) = Some r ->
  let st := mkStore [("state", VInt U32 (Z.of_N s)); ("current_symbol", symbol_value sym)] m in does P ext st (goto_body c) st r.
Proof.
  intros s sym m r L H st. unfold retrieve_next_state in H. rewrite numbered_find in H. unfold goto_body.
  assert (NR : r <> RNext /\ r <> RBreak).
  { destruct (find _ _) as [(q, (ts, nts))|]; cbn [option_map snd] in H; [|injection H as <-; split; discriminate].
    destruct (match sy_kind sym with KindTerminal => _ | KindNonTerminal => _ | KindState => _ end); injection H as <-; split; discriminate. }
  eapply does_eq; [eapply does_last; [|exact (proj1 NR)]|apply leave_self|reflexivity].
  eapply does_eq; [eapply (does_choice _ _ st _ (VInt U32 (Z.of_N s)) goto_state_of); [reflexivity| |reflexivity|exact (proj2 NR)|]|apply leave_self|reflexivity].
  - intros a J. apply (state_label goto_state_of (cx_gotos c)); [|exact J]. intros (q, (ts, nts)) K. split; [reflexivity|exact (proj1 (wl_gotos c W q ts nts K))].
  - cbn beta. destruct (find (fun a => Z.eqb (Z.of_N s) (Z.of_N (N.of_nat (fst a)))) (cx_gotos c)) as [(q, (ts, nts))|] eqn:F; cbn [option_map snd] in H.
    2:{ injection H as <-. apply runs_terminate. }
    intros rest. apply find_some in F. destruct F as (J & _). cbn [goto_state_of snd fst stmts fold_right]. apply runs_stop; [|exact (proj1 NR)].
    eapply does_eq; [eapply does_last; [|exact (proj1 NR)]|apply leave_self|reflexivity]. unfold goto_choice. destruct (cc_gotos c C q ts nts J) as ((L1 & _) & (L2 & _)). destruct (wl_gotos c W q ts nts J) as (_ & T1 & T2).
    destruct (sy_kind sym) eqn:K.
    + eapply does_if; [unfold st, symbol_value; rewrite K; reflexivity|reflexivity|]. eapply (does_goto_switch "lexer" "TokenType" (token_label c)); [reflexivity|exact L| |exact H|exact (proj1 NR)|exact (proj2 NR)].
      intros l x I0. split; [exact (token_hit l _ (proj1 (T1 l x I0)) (L1 l x I0))|exact (proj2 (T1 l x I0))].
    + eapply does_else; [unfold st, symbol_value; rewrite K; reflexivity|reflexivity|]. eapply does_if; [unfold st, symbol_value; rewrite K; reflexivity|reflexivity|].
      eapply (does_goto_switch "parser" "NonTerminalType" (nt_label c)); [reflexivity|exact L| |exact H|exact (proj1 NR)|exact (proj2 NR)].
      intros l x I0. split; [exact (nt_hit l _ (proj1 (T2 l x I0)) (L2 l x I0))|exact (proj2 (T2 l x I0))].
    + eapply does_else; [unfold st, symbol_value; rewrite K; reflexivity|reflexivity|]. eapply does_else; [unfold st, symbol_value; rewrite K; reflexivity|reflexivity|].
      injection H as <-. eapply does_eq; [eapply does_last; [apply does_terminate|discriminate]|apply leave_self|reflexivity].
Qed.

(** ** [reduce_stack] *)

Definition reduce_store (rule : value) (stack rev : list csym) (m : list (string * value)) : store := mkStore [("rule", rule); ("parse_stack", stack_value stack); ("rev_reduced_symbols", stack_value rev)] m.
Definition loop_store (i : Z) (rule : value) (stack rev : list csym) (m : list (string * value)) : store := mkStore (("i", VInt U64 i) :: locals (reduce_store rule stack rev m)) m.
Definition loop_body : stmt := block [pop_stmt; SLet ["Symbol"] "reduced_symbol" (ECall (EField (EName ["parse_stack"]) "back") []);
  SExpr (ECall (EField (EName ["rev_reduced_symbols"]) "push_back") [EName ["reduced_symbol"]]); pop_stmt].
Definition loop_turn : stmt := SBlock (IStmt loop_body (IStmt (SExpr (EInc (EName ["i"]))) INil)).
Definition loop_test (n : nat) : expr := ELess (EName ["i"]) (ENum (Z.of_nat n)).
Lemma does_loop_body : forall i rule a b stack rev m, does P ext (loop_store i rule (a :: b :: stack) rev m) loop_body (loop_store i rule stack (b :: rev) m) RNext.
Proof. intros i rule a b stack rev m. apply (ev_const _ 12). intros n. reflexivity. Qed.
Lemma does_count : forall i rule stack rev m, (0 <= i < 4294967296)%Z -> does P ext (loop_store i rule stack rev m) (SExpr (EInc (EName ["i"]))) (loop_store (i + 1) rule stack rev m) RNext.
Proof.
  intros i rule stack rev m L. apply does_now. intros n. cbn [exec]. unfold add_to. change (eval P (loop_store i rule stack rev m) (EName ["i"])) with (Some (VInt U64 i)). change (common U64 I32) with U64. cbv iota beta. rewrite wrap_u64 by lia.
  unfold assign. change (eval P (loop_store i rule stack rev m) (EName ["i"])) with (Some (VInt U64 i)). cbn [type_of]. change (convert "size_t" (VInt (common U64 I32) (i + 1))) with (Some (VInt U64 (wrap U64 (i + 1)))). rewrite wrap_u64 by lia. reflexivity.
Qed.
Lemma does_loop_turn : forall i rule a b stack rev m, (0 <= i < 4294967296)%Z -> does P ext (loop_store i rule (a :: b :: stack) rev m) loop_turn (loop_store (i + 1) rule stack (b :: rev) m) RNext.
Proof.
  intros i rule a b stack rev m L. unfold loop_turn. eapply does_eq; [apply does_block; eapply runs_cons; [apply does_loop_body|eapply runs_cons; [apply does_count; exact L|apply runs_nil]]|apply leave_same; reflexivity|reflexivity].
Qed.
Lemma eval_loop_test : forall n i rule stack rev m, in_word n -> (0 <= i < 4294967296)%Z -> eval P (loop_store i rule stack rev m) (loop_test n) = Some (VInt Bool (if (i <? Z.of_nat n)%Z then 1 else 0)).
Proof.
  intros n i rule stack rev m L I0. unfold in_word in L. unfold loop_test. cbn [eval]. change (find_name "i" (locals (loop_store i rule stack rev m))) with (Some (VInt U64 i)). destruct (literal_int (Z.of_nat n)) as (t & ->). cbn [less].
  assert (CT : common U64 t = U64) by (destruct t; reflexivity). rewrite CT, !wrap_u64 by lia. reflexivity.
Qed.
Lemma does_loop : forall n k i rule stack rev m stack', in_word n -> pop_symbols k stack = Ok stack' -> (i + Z.of_nat k = Z.of_nat n)%Z -> (0 <= i)%Z ->
  does P ext (loop_store i rule stack rev m) (SWhile (loop_test n) loop_turn) (loop_store (Z.of_nat n) rule stack' (popped k stack rev) m) RNext.
Proof.
  intros n k. induction k as [|k IH]; intros i rule stack rev m stack' L H E I0; pose proof L as L'; unfold in_word in L'.
  - cbn [pop_symbols popped] in *. injection H as <-. assert (i = Z.of_nat n) by lia. subst i. eapply does_done; [apply eval_loop_test; [exact L|lia]|]. rewrite Z.ltb_irrefl. reflexivity.
  - cbn [pop_symbols] in H. destruct stack as [|a [|b stack]]; try discriminate. eapply does_turn; [apply eval_loop_test; [exact L|lia]| |apply does_loop_turn; lia|].
    + replace (i <? Z.of_nat n)%Z with true by (symmetry; apply Z.ltb_lt; lia). reflexivity.
    + cbn [popped]. apply IH; [exact L|exact H|lia|lia].
Qed.
Lemma does_pops : forall n rule stack rev m stack', in_word n -> pop_symbols n stack = Ok stack' -> does P ext (reduce_store rule stack rev m) (loop_stmt n) (reduce_store rule stack' (popped n stack rev) m) RNext.
Proof.
  intros n rule stack rev m stack' L H. pose proof (does_loop n n 0 rule stack rev m stack' L H ltac:(lia) ltac:(lia)) as X. apply (ev_imp _ _ 3 2 X). intros k Y.
  change (3 + k)%nat with (S (2 + k)). unfold loop_stmt. cbn [exec]. change (exec (2 + k) P ext (reduce_store rule stack rev m) (SLet ["size_t"] "i" (ENum 0))) with (Some (loop_store 0 rule stack rev m, RNext)). cbv iota beta.
  change (SBlock (IStmt (block _) (IStmt (SExpr (EInc (EName ["i"]))) INil))) with loop_turn. fold (loop_test n). rewrite Y. reflexivity.
Qed.
Lemma does_push : forall rule s v stack rev m b, enum_value (cx_nts c) s = Some v -> runs P ext (reduce_store rule stack rev m) (stmts (push_stmts s) b)
  (mkStore (("reduced_non_terminal", symbol_value (mkSym KindNonTerminal v)) :: locals (reduce_store rule (mkSym KindNonTerminal v :: stack) rev m)) m) (RReturn None).
Proof.
  intros rule s v stack rev m b E. unfold push_stmts. cbn [stmts fold_right]. pose proof (enum_value_bound v s E) as L.
  eapply (runs_cons _ _ _ _ (mkStore (("reduced_non_terminal", symbol_value (mkSym KindNonTerminal v)) :: locals (reduce_store rule stack rev m)) m)).
  - eapply does_eq; [eapply (does_init P ext _ ["Symbol"]); [reflexivity|reflexivity|]| |reflexivity].
    + instantiate (1 := [("kind", kind_value KindNonTerminal); ("identifier", VInt U32 (Z.of_N v))]). cbn [init_fields].
      change (eval P (reduce_store rule stack rev m) (EName ["SymbolKind"; "NonTerminal"])) with (Some (VEnum "SymbolKind" 1)).
      change (eval P (reduce_store rule stack rev m) (ECast ["uint32_t"] (EName ["NonTerminalType"; s]))) with (match eval P (reduce_store rule stack rev m) (EName ["NonTerminalType"; s]) with Some (VInt _ z) => Some (VInt U32 (wrap U32 z)) | Some (VEnum _ z) => Some (VInt U32 (wrap U32 z)) | _ => None end).
      rewrite nt_value, E. cbn [option_map]. rewrite wrap_u32 by lia. change (exact "uint32_t" (VInt U32 (Z.of_N v))) with (if (wrap U32 (Z.of_N v) =? Z.of_N v)%Z then Some (VInt U32 (wrap U32 (Z.of_N v))) else None).
      rewrite wrap_u32 by lia. rewrite Z.eqb_refl. reflexivity.
    + reflexivity.
  - eapply runs_cons; [apply (ev_const _ 4); intros n; reflexivity|]. apply runs_stop; [|discriminate]. apply does_now. intros n. reflexivity.
Qed.
Lemma does_reduce_stack : forall rule stack rev m r, ending (fun _ => None) (cpp_reduce_stack c rule stack) = Some r ->
  does P ext (reduce_store (VInt U32 (Z.of_nat rule)) stack rev m) (reduce_body c)
    (match cpp_reduce_stack c rule stack with
     | Ok stack' => reduce_store (VInt U32 (Z.of_nat rule)) stack' (match numbered (cx_reductions c) (N.of_nat rule) with Some (n, _) => popped n stack rev | None => rev end) m
     | _ => reduce_store (VInt U32 (Z.of_nat rule)) stack rev m
     end) r.
Proof.
  intros rule stack rev m r H. set (st := reduce_store (VInt U32 (Z.of_nat rule)) stack rev m). unfold cpp_reduce_stack in *. rewrite numbered_find in *. unfold reduce_body.
  assert (NR : r <> RNext /\ r <> RBreak).
  { unfold ending in H. destruct (match option_map snd _ with Some _ => _ | None => _ end) as [x|[]| |]; try discriminate; injection H as <-; split; discriminate. }
  eapply does_eq; [eapply does_last; [|exact (proj1 NR)]| |reflexivity].
  - eapply (does_choice _ _ st _ (VInt U32 (Z.of_N (N.of_nat rule))) reduction_of (fun a => Z.eqb (Z.of_N (N.of_nat rule)) (Z.of_N (N.of_nat (fst a))))); [rewrite nat_N_Z; reflexivity| |reflexivity|exact (proj2 NR)|].
    + intros a J. apply (state_label reduction_of (cx_reductions c)); [|exact J]. intros (k, (n, s)) K. split; [reflexivity|exact (proj1 (wl_reductions c W k n s K))].
    + instantiate (1 := match find (fun a => Z.eqb (Z.of_N (N.of_nat rule)) (Z.of_N (N.of_nat (fst a)))) (cx_reductions c) with
        | Some (_, (n, s)) => match enum_value (cx_nts c) s, pop_symbols n stack with
          | Some v, Ok stack' => reduce_store (VInt U32 (Z.of_nat rule)) (mkSym KindNonTerminal v :: stack') (popped n stack rev) m
          | _, _ => st end
        | None => st end). destruct (find _ (cx_reductions c)) as [(k, (n, s))|] eqn:F; cbn [option_map snd] in H.
      2:{ injection H as <-. apply runs_terminate. }
      intros rest. destruct (enum_value (cx_nts c) s) as [v|] eqn:E; [|discriminate]. destruct (pop_symbols n stack) as [stack'|e| |] eqn:Q; cbn [bind ending] in H; try discriminate.
      2:{ destruct e as [msg| | |]; try discriminate; exfalso; clear - Q; revert stack Q; induction n as [|n IH]; intros stack Q; cbn in Q; try discriminate; destruct stack as [|a [|b stack]]; try discriminate; exact (IH _ Q). }
      injection H as <-. apply find_some in F. destruct F as (J & _). destruct (wl_reductions c W k n s J) as (_ & LN & _). cbn [reduction_of fst snd stmts fold_right]. apply runs_stop; [|discriminate].
      eapply does_eq; [apply does_block| |reflexivity].
      * instantiate (1 := mkStore (("reduced_non_terminal", symbol_value (mkSym KindNonTerminal v)) :: locals (reduce_store (VInt U32 (Z.of_nat rule)) (mkSym KindNonTerminal v :: stack') (popped n stack rev) m)) m).
        destruct n as [|n].
        -- cbn [pop_symbols] in Q. injection Q as <-. exact (does_push _ s v stack rev m INil E).
        -- change (Nat.ltb 0 (S n)) with true. change (stmts ([loop_stmt (S n)] ++ push_stmts s) INil) with (IStmt (loop_stmt (S n)) (stmts (push_stmts s) INil)).
           eapply runs_cons; [exact (does_pops (S n) _ stack rev m stack' LN Q)|]. exact (does_push _ s v stack' _ m INil E).
      * apply leave_one. reflexivity.
  - destruct (find _ (cx_reductions c)) as [(k, (n, s))|] eqn:F; cbn [option_map snd] in *; [|rewrite !leave_self; reflexivity].
    destruct (enum_value (cx_nts c) s) as [v|] eqn:E; [|discriminate]. destruct (pop_symbols n stack) as [stack'|e| |]; cbn [bind]; [|rewrite !leave_self; reflexivity..]. reflexivity.
Qed.

(** ** [reduce_visitor] *)

Lemma does_reduce_visitor : forall visits log revs rule m method, writable_visits visits -> numbered visits (N.of_nat rule) = Some method ->
  does P ext (mkStore [("visitor", visitor_value log); ("rev_reduced_symbols", VVec revs); ("rule", VInt U32 (Z.of_nat rule))] m) (visit_body visits)
    (mkStore [("visitor", visitor_value (match method with Some name => reduce_call name :: log | None => log end)); ("rev_reduced_symbols", VVec revs); ("rule", VInt U32 (Z.of_nat rule))] m) (RReturn None).
Proof.
  intros visits log revs rule m method WV H. rewrite numbered_find in H. unfold visit_body.
  eapply does_eq; [eapply (does_last _ _ _ _ _ (RReturn None)); [|discriminate]|apply leave_same; reflexivity|reflexivity].
  eapply does_eq; [eapply (does_choice _ _ _ _ (VInt U32 (Z.of_N (N.of_nat rule))) visit_of (fun a => Z.eqb (Z.of_N (N.of_nat rule)) (Z.of_N (N.of_nat (fst a)))) visits _ _ (RReturn None)); [rewrite nat_N_Z; reflexivity| |reflexivity|discriminate|]|apply leave_same; reflexivity|reflexivity].
  - intros a J. apply (state_label visit_of visits); [|exact J]. intros (k, x) K. split; [reflexivity|exact (proj1 (WV k x K))].
  - destruct (find _ visits) as [(k, x)|] eqn:F; [|discriminate]. cbn [option_map snd] in H. injection H as ->. intros rest. cbn [visit_of snd fst stmts fold_right]. apply runs_stop; [|discriminate].
    apply find_some in F. destruct F as (J & _). destruct (WV k method J) as (_ & M). destruct method as [name|].
    + destruct M as (s & -> & _). eapply does_eq; [apply does_block; eapply runs_cons; [|apply runs_stop; [apply does_now; intros n; reflexivity|discriminate]]|apply leave_same; reflexivity|reflexivity].
      apply (ev_const _ 3). intros n. reflexivity.
    + eapply does_eq; [apply does_block; apply runs_stop; [apply does_now; intros n; reflexivity|discriminate]|apply leave_same; reflexivity|reflexivity].
Qed.
End Functions.
