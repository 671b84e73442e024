(** Concrete lexers used as witnesses beside the theorems about the text of C++ lexers. *)
From Coq Require Import String List Arith NArith ZArith Bool Lia.
From Verif Require Import Base InputModel LexerModel LexerSpec LexerFactsProof LexerExample CppLexerModel CppLexerSpec TemplateModel TemplateFiles CppTextModel CppTextSpec CppTextProof CppLexTextSpec CppLexTextProof.
From Verif Require CppBitsProof.
Import ListNotations.
Local Open Scope string_scope.
Local Open Scope list_scope.

Definition plainb (s : string) : bool := forallb word_char (chars s).
Lemma plainb_ok : forall s, plainb s = true -> plain_name s.
Proof. intros s H c I. unfold plainb in H. rewrite forallb_forall in H. exact (H c I). Qed.
Definition one_lineb (t : text) : bool := negb (existsb (N.eqb 10) t) && negb (last t 0 =? 92)%N.
Lemma one_lineb_ok : forall t, one_lineb t = true -> one_line t.
Proof.
  intros t H. unfold one_lineb in H. apply andb_true_iff in H. destruct H as (A & B). apply negb_true_iff in A, B. split; [|apply N.eqb_neq; exact B]. intros I. assert (X : existsb (N.eqb 10) t = true) by (apply existsb_exists; exists 10%N; split; [exact I|reflexivity]). congruence.
Qed.
(** In place of what [{:?}] writes. *)
Definition by_name (r : token_rule) : text := chars (tr_name r).

(** ["a"] as the token [A]. *)
Definition one_rule := [ex_a].
Definition one_lexer : res lex_err (alphabet * dfa token_rule) := Eval vm_compute in generate_lexer 100 one_rule.
Definition one_al : alphabet := Eval vm_compute in match one_lexer with Ok (al, _) => al | _ => [] end.
Definition one_dfa : dfa token_rule := Eval vm_compute in match one_lexer with Ok (_, d) => d | _ => mkDfa [] [] 0 end.

(** The switch over the states of that lexer. *)
Definition one_switch : text := chars "switch (state)
{
case 0:
switch (i)
{
case 0: 
return TokenType::TK_EOF;
case 2: 
this->ch = -1;
state = 1;
break;
default:
return TokenType::TK_ERR;
}
break;
case 1:
switch (i)
{
default:
// ACCEPT: A
this->end_pos = this->position;
return TokenType::TK_A;
}
break;
default:
return TokenType::TK_ERR;
}
".
(** The switch over the characters. *)
Definition one_alphabet : text := chars "uint32_t i;
switch (ch)
{
case 0:
i = 0;
break;
case 1 ... 96:
i = 1;
break;
case 97:
i = 2;
break;
case 98 ... 1114110:
i = 3;
break;
case 1114111:
i = 4;
break;
default:
return TokenType::TK_ERR;
}
".
(** The switch over the tokens. *)
Definition one_names : text := chars "switch (tk_type) {
case TokenType::TK_ERR:
return ""<ERR>"";
case TokenType::TK_EOF:
return ""<EOF>"";
case TokenType::TK_A:
return ""A"";
default:
return nullptr;
}
".
Lemma one_texts : write_state_machine_switch by_name one_dfa = one_switch /\ write_alphabet_switch one_al = one_alphabet /\ write_get_token_name_function ["A"] = one_names.
Proof. vm_compute. repeat split. Qed.

(** The function of a text, for running it on examples. *)
Definition body_of (t h : text) : option stmt :=
  match tokens t, tokens h with
  | Some ts, Some hs => match behind hs ts with Some r => match parse_stmt 200 r with Some (b, _) => Some b | None => None end | None => None end
  | _, _ => None
  end.
Fixpoint call_times (n : nat) (P : program) (ext : externals) (body : stmt) (st : store) : list (option value * option value * option value) :=
  match n with
  | O => []
  | S n =>
    match exec 300 P ext st body with
    | Some (st', RReturn v) => (v, find_name "start_pos" (members st'), find_name "end_pos" (members st')) :: call_times n P ext body st'
    | _ => []
    end
  end.

Definition next_head : text := chars "TokenType Lexer::next()".
Definition name_head : text := chars "const char *get_token_name(TokenType tk_type)".

Lemma ex_named : forall r, In r ex_rules -> plain_name (tr_name r) /\ one_line (by_name r).
Proof. intros r I. cbn in I. decompose [or] I; subst; try contradiction; (split; [apply plainb_ok; reflexivity|apply one_lineb_ok; reflexivity]). Qed.

Lemma one_ranges : ranges_fit one_al.
Proof.
  unfold one_al. split; [|split].
  - intros a b I. cbn in I. decompose [or] I; try contradiction; (match goal with H : _ = (a, b) |- _ => injection H as <- <- end; split; [discriminate|reflexivity]).
  - repeat (constructor; [repeat constructor; left; reflexivity|]). constructor.
  - discriminate.
Qed.
Lemma one_automaton : automaton_fits one_dfa.
Proof.
  split; [discriminate|]. intros q L. cbn in L. destruct q as [|[|q]]; [| |exfalso; lia]; (split; [vm_compute; repeat constructor; intros I; repeat destruct I as [I|I]; try discriminate; destruct I|]); intros t v I; vm_compute in I.
  - destruct I as [I|[]]. injection I as <- <-. split; [reflexivity|cbn; lia].
  - destruct I.
Qed.
Lemma one_writable : forall node, In node (dfa_nodes one_dfa) -> writable_node by_name node.
Proof. intros node I. cbn in I. decompose [or] I; subst; try contradiction; [exact Logic.I|]. split; [apply plainb_ok; reflexivity|apply one_lineb_ok; reflexivity]. Qed.
Lemma one_known : forall r, In (Accepting r) (dfa_nodes one_dfa) -> In (tr_name r) ["A"].
Proof. intros r I. cbn in I. decompose [or] I; try contradiction; try discriminate. match goal with H : _ = Accepting r |- _ => injection H as <- end. left. reflexivity. Qed.

(** A text in place of [{:?}] that ends its line, and one that joins the next line to its own. *)
Definition broken (r : token_rule) : text := [10; 64]%N.
Definition joined (r : token_rule) : text := chars "A\".
Lemma broken_text : forall h b, ~ defines (lexer_cpp_text broken one_al one_dfa) h b.
Proof. intros h b (ts & hs & r & T & _). vm_compute in T. discriminate. Qed.
Definition joined_body : stmt := Eval vm_compute in match body_of (lexer_cpp_text joined one_al one_dfa) next_head with Some b => b | None => SBreak end.
Lemma joined_text : defines (lexer_cpp_text joined one_al one_dfa) next_head joined_body.
Proof.
  destruct (tokens (lexer_cpp_text joined one_al one_dfa)) as [ts|] eqn:T; [|vm_compute in T; discriminate]. destruct (tokens next_head) as [hs|] eqn:Q; [|vm_compute in Q; discriminate].
  destruct (behind hs ts) as [r|] eqn:B.
  - exists ts, hs, r. repeat split; try assumption. vm_compute in T, Q. injection T as <-. injection Q as <-. vm_compute in B. injection B as <-. exists 200%nat. intros fuel L. replace fuel with (200 + (fuel - 200))%nat by lia. generalize (fuel - 200)%nat. clear. intros n. eexists. vm_compute. reflexivity.
  - vm_compute in T, Q. injection T as <-. injection Q as <-. vm_compute in B. discriminate.
Qed.

Definition joined_code : lexer_code := mkLexerCode CppBitsProof.decode_steps joined_body (CppBitsProof.getter "start_pos") (CppBitsProof.getter "end_pos").
Lemma joined_code_in : lexer_code_in (lexer_cpp_text joined one_al one_dfa) joined_code.
Proof.
  destruct (tokens (lexer_cpp_text joined one_al one_dfa)) as [ts|] eqn:T; [|vm_compute in T; discriminate]. pose proof T as T'. vm_compute in T'. injection T' as <-. split; [|split; [exact joined_text|split]].
  - eexists. exists CppBitsProof.decode_tokens. eexists. split; [exact T|]. split; [vm_compute; reflexivity|]. split; [vm_compute; reflexivity|].
    exists 300%nat. intros fuel L. replace fuel with (300 + (fuel - 300))%nat by lia. generalize (fuel - 300)%nat. clear. intros n. eexists. vm_compute. reflexivity.
  - eexists. exists CppBitsProof.start_header. eexists. split; [exact T|]. split; [reflexivity|]. split; [vm_compute; reflexivity|]. exists 20%nat. intros fuel L. replace fuel with (20 + (fuel - 20))%nat by lia. generalize (fuel - 20)%nat. intros n. eexists. reflexivity.
  - eexists. exists CppBitsProof.end_header. eexists. split; [exact T|]. split; [reflexivity|]. split; [vm_compute; reflexivity|]. exists 20%nat. intros fuel L. replace fuel with (20 + (fuel - 20))%nat by lia. generalize (fuel - 20)%nat. intros n. eexists. reflexivity.
Qed.

Lemma comments_matter : exists debug1 debug2 al d, ranges_fit al /\ automaton_fits d /\
  (forall h b, ~ defines (lexer_cpp_text debug1 al d) h b) /\
  exists code st, lexer_code_in (lexer_cpp_text debug2 al d) code /\
    exists lx lx', lexer_fits lx /\ cpp_next al d lx = Ok (lx', "TK_A") /\ does (token_program ["A"]) (decoder (code_decode code)) (lexer_object lx) (code_next code) st (RReturn (Some (token_value 2))) /\
    find_name "end_pos" (members st) = Some (VInt U64 0) /\ find_name "end_pos" (members (lexer_object lx')) = Some (VInt U64 1).
Proof.
  exists broken, joined, one_al, one_dfa. split; [exact one_ranges|]. split; [exact one_automaton|]. split; [exact broken_text|].
  destruct (exec 300 (token_program ["A"]) (decoder CppBitsProof.decode_steps) (lexer_object (cpp_new [97%N])) joined_body) as [(st, r)|] eqn:E; [|vm_compute in E; discriminate].
  exists joined_code, st. split; [exact joined_code_in|]. exists (cpp_new [97%N]), (mkCpp [] 0 0 1 0 1). split; [repeat constructor|]. split; [vm_compute; reflexivity|].
  vm_compute in E. injection E as <- <-. split; [|split; reflexivity].
  exists 100%nat. intros fuel L. replace fuel with (100 + (fuel - 100))%nat by lia. generalize (fuel - 100)%nat. clear. intros n. vm_compute. reflexivity.
Qed.
Definition two_ranges : alphabet := [(0, 5); (3, 4)]%N.
Lemma overlap_matters : exists debug al d, automaton_fits d /\ (forall node, In node (dfa_nodes d) -> writable_node debug node) /\ forall names body,
  defines (lexer_cpp_text debug al d) (chars "TokenType Lexer::next()") body -> checks (token_program names) body = false.
Proof.
  exists by_name, two_ranges, one_dfa. split; [exact one_automaton|]. split; [exact one_writable|]. intros names body (ts & hs & r & T & Q & B & n & P). destruct (P (n + 200)%nat ltac:(lia)) as (r' & E). clear P.
  vm_compute in T, Q. injection T as <-. injection Q as <-. vm_compute in B. injection B as <-. rewrite Nat.add_comm in E. vm_compute in E. injection E as <- _. vm_compute. reflexivity.
Qed.
