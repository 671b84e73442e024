(** Property theorems about the text of emitted C++ lexers (C53). *)
From Coq Require Import String List Arith NArith ZArith Bool Lia.
From Verif Require Import Base InputModel LexerModel LexerSpec LexerFactsProof LexerExample CppLexerModel CppLexerSpec TemplateModel TemplateFiles CppTextModel CppTextSpec CppTextProof CppLexTextSpec CppLexTextProof CppLexGenProof CppLexTextExample.
From Verif Require CppBitsProof.
Import ListNotations.
Local Open Scope string_scope.
Local Open Scope list_scope.

(** C53.  For any tables that can be written, the text of lexer.cpp defines [utf8_decode], [next], [start] and [end], with no two cases
    for one value and enumerators that exist, and running [next], which runs [utf8_decode], does to the object what the model of
    CppLexerModel.v does; [start] and [end] return the places. *)
Theorem lexer_text_runs : forall debug al d names, (forall node, In node (dfa_nodes d) -> writable_node debug node) -> (forall r, In (Accepting r) (dfa_nodes d) -> In (tr_name r) names) -> ranges_fit al -> automaton_fits d ->
  exists code, lexer_code_in (lexer_cpp_text debug al d) code /\ code_checks (token_program names) code = true /\
  (forall lx lx' tk k, lexer_fits lx -> cpp_next al d lx = Ok (lx', tk) -> find_index (String.eqb tk) (enumerators names) = Some k ->
    does (token_program names) (decoder (code_decode code)) (lexer_object lx) (code_next code) (lexer_object lx') (RReturn (Some (token_value k)))) /\
  forall ext lx, does (token_program names) ext (lexer_object lx) (code_start code) (lexer_object lx) (RReturn (Some (VInt U64 (Z.of_nat (cl_start lx))))) /\
    does (token_program names) ext (lexer_object lx) (code_end code) (lexer_object lx) (RReturn (Some (VInt U64 (Z.of_nat (cl_end lx))))).
Proof. exact next_text. Qed.
(** The lexer of the single token [A] for ["a"]. *)
Example lexer_text_runs_case :
  (forall node, In node (dfa_nodes one_dfa) -> writable_node by_name node) /\ (forall r, In (Accepting r) (dfa_nodes one_dfa) -> In (tr_name r) ["A"]) /\ ranges_fit one_al /\ automaton_fits one_dfa /\
  write_state_machine_switch by_name one_dfa = one_switch /\ write_alphabet_switch one_al = one_alphabet /\
  lexer_fits (cpp_new [97; 97; 98]%N) /\ cpp_next one_al one_dfa (cpp_new [97; 97; 98]%N) = Ok (mkCpp [98]%N 97 0 1 0 1, "TK_A").
Proof.
  split; [exact one_writable|]. split; [exact one_known|]. split; [exact one_ranges|]. split; [exact one_automaton|]. split; [exact (proj1 one_texts)|]. split; [exact (proj1 (proj2 one_texts))|].
  split; [|vm_compute; reflexivity]. split; [repeat constructor|]. split; reflexivity.
Qed.
Print Assumptions lexer_text_runs.

(** C53.  For the tables of any rules, the calls of the function of the text return on the encoding of any text, followed by any
    malformed bytes, what the Rust lexer returns on the text. *)
Theorem generated_lexer_text : forall fuel rules al d debug, valid_rules rules -> no_empty_sequence rules -> generate_lexer fuel rules = Ok (al, d) -> (N.of_nat (List.length (dfa_nodes d)) <= 2 ^ 32)%N ->
  (forall r, In r rules -> plain_name (tr_name r) /\ one_line (debug r)) ->
  exists code, lexer_code_in (lexer_cpp_text debug al d) code /\ code_checks (token_program (map tr_name rules)) code = true /\
  forall text bytes junk n, utf8_text text bytes -> Forall is_byte junk -> junk = [] \/ malformed junk -> (Z.of_nat (List.length (bytes ++ junk)) + 2 < 18446744073709551616)%Z ->
  exists rs cs l, lexer_run al d n (lexer_new text) = Ok rs /\ calls (token_program (map tr_name rules)) (decoder (code_decode code)) (code_next code) (lexer_object (cpp_new (bytes ++ junk))) l /\
    Forall2 (agree text junk) rs cs /\ Forall2 (seen (map tr_name rules)) cs l.
Proof. exact generated_text. Qed.
(** Keywords, identifiers, numbers and white space, on ["if x1 2.5"]: tokens with start and end. *)
Example generated_lexer_text_case :
  (forall r, In r ex_rules -> plain_name (tr_name r) /\ one_line (by_name r)) /\ valid_rules ex_rules /\ no_empty_sequence ex_rules /\
  match generate_lexer 100 ex_rules with
  | Ok (al, d) =>
    (List.length (dfa_nodes d) <= 100)%nat /\
    match body_of (lexer_cpp_text by_name al d) next_head with
    | Some body => call_times 6 (token_program (map tr_name ex_rules)) (decoder CppBitsProof.decode_steps) body (lexer_object (cpp_new ex_text))
    | None => []
    end =
    map (fun x => let '(k, a, b) := x in (Some (token_value k), Some (VInt U64 a), Some (VInt U64 b))) [(2%nat, 0, 2); (5%nat, 2, 3); (3%nat, 3, 5); (5%nat, 5, 6); (4%nat, 6, 9); (1%nat, 9, 9)]%Z
  | _ => False
  end.
Proof. split; [exact ex_named|]. split; [apply valid_rulesb_ok; vm_compute; reflexivity|]. split; [apply no_empty_sequenceb_ok; vm_compute; reflexivity|]. vm_compute. split; [lia|reflexivity]. Qed.
Print Assumptions generated_lexer_text.

(** C53.  The text of a rule that [{:?}] writes must not leave its comment: with a new line in it, lexer.cpp can have characters that
    are no tokens; with a backslash at its end, the next line is part of the comment, and the end of the token is never set. *)
Theorem comment_text_refuted : exists debug1 debug2 al d, ranges_fit al /\ automaton_fits d /\
  (forall h b, ~ defines (lexer_cpp_text debug1 al d) h b) /\
  exists code st, lexer_code_in (lexer_cpp_text debug2 al d) code /\
    exists lx lx', lexer_fits lx /\ cpp_next al d lx = Ok (lx', "TK_A") /\ does (token_program ["A"]) (decoder (code_decode code)) (lexer_object lx) (code_next code) st (RReturn (Some (token_value 2))) /\
    find_name "end_pos" (members st) = Some (VInt U64 0) /\ find_name "end_pos" (members (lexer_object lx')) = Some (VInt U64 1).
Proof. exact comments_matter. Qed.
Print Assumptions comment_text_refuted.

(** C53.  Without ranges that do not overlap, the switch has two cases for one value. *)
Theorem overlap_text_refuted : exists debug al d, automaton_fits d /\ (forall node, In node (dfa_nodes d) -> writable_node debug node) /\ forall names body,
  defines (lexer_cpp_text debug al d) (chars "TokenType Lexer::next()") body -> checks (token_program names) body = false.
Proof. exact overlap_matters. Qed.
Print Assumptions overlap_text_refuted.

(** C53.  The text of tokens.h defines the enumeration exactly if the names are distinct and neither [ERR] nor [EOF], and then the
    enumerators are numbered from zero. *)
Theorem token_enum_text : forall names, Forall plain_name names ->
  ((exists l, enum_in (tokens_h_text names) "TokenType" "uint32_t" l) <-> NoDup names /\ ~ In "ERR" names /\ ~ In "EOF" names /\ (N.of_nat (List.length names) + 2 <= 2 ^ 32)%N) /\
  forall l, enum_in (tokens_h_text names) "TokenType" "uint32_t" l -> l = counted (enumerators names).
Proof. exact tokens_h_iff. Qed.
Example token_enum_text_case : Forall plain_name ["IF"; "ID"; "NUM"] /\ write_token_enum_variants ["IF"; "ID"; "NUM"] = chars "TK_IF,
TK_ID,
TK_NUM,
" /\ counted (enumerators ["IF"; "ID"; "NUM"]) = [("TK_ERR", 0); ("TK_EOF", 1); ("TK_IF", 2); ("TK_ID", 3); ("TK_NUM", 4)]%Z /\
  forall l, ~ enum_in (tokens_h_text ["IF"; "EOF"]) "TokenType" "uint32_t" l.
Proof.
  split; [repeat constructor; apply plainb_ok; reflexivity|]. split; [reflexivity|]. split; [reflexivity|]. intros l E.
  assert (F : Forall plain_name ["IF"; "EOF"]) by (repeat constructor; apply plainb_ok; reflexivity). destruct (proj1 (proj1 (token_enum_text _ F)) (ex_intro _ l E)) as (_ & _ & H & _). apply H. right. left. reflexivity.
Qed.
Print Assumptions token_enum_text.

(** C53.  The text of tokens.cpp defines a function that returns for each enumerator its name in the grammar, and a null pointer for other values. *)
Theorem token_name_text : forall names, Forall plain_name names -> NoDup names -> ~ In "ERR" names -> ~ In "EOF" names ->
  exists body, defines (tokens_cpp_text names) (chars "const char *get_token_name(TokenType tk_type)") body /\ checks (token_program names) body = true /\
  (forall ext m k tk, nth_error (enumerators names) k = Some tk -> exists s, get_token_name names tk = Some s /\
     does (token_program names) ext (mkStore [("tk_type", token_value k)] m) body (mkStore [("tk_type", token_value k)] m) (RReturn (Some (VStr s)))) /\
  (forall ext m z, (z < 0 \/ Z.of_nat (List.length (enumerators names)) <= z)%Z ->
     does (token_program names) ext (mkStore [("tk_type", VEnum "TokenType" z)] m) body (mkStore [("tk_type", VEnum "TokenType" z)] m) (RReturn (Some VNull))).
Proof. exact tokens_cpp_text_ok. Qed.
Example token_name_text_case : write_get_token_name_function ["A"] = one_names /\
  match body_of (tokens_cpp_text ["IF"; "ID"]) name_head with
  | Some body => map (fun z => match exec 300 (token_program ["IF"; "ID"]) (decoder []) (mkStore [("tk_type", VEnum "TokenType" z)] []) body with Some (_, r) => Some r | None => None end) [0; 1; 2; 3; 4]%Z
  | None => []
  end = [Some (RReturn (Some (VStr "<ERR>"))); Some (RReturn (Some (VStr "<EOF>"))); Some (RReturn (Some (VStr "IF"))); Some (RReturn (Some (VStr "ID"))); Some (RReturn (Some VNull))].
Proof. split; [exact (proj2 (proj2 one_texts))|]. vm_compute. reflexivity. Qed.
Print Assumptions token_name_text.
