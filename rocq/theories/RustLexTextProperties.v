(** Property theorems about the code of emitted Rust lexers (C58). *)
From Coq Require Import String List Arith NArith Bool.
From Verif Require Import Base InputModel LexerModel LexerSpec LexerFactsProof LexerExample TemplateModel TemplateFiles NamesModel NamesSpec RustTokenSpec RustQuoteModel RustSpec RustLexTextModel RustLexTextSpec RustLexTextProof RustLexRunProof RustLexGenProof CppLexTextExample RustLexTextExample.
Import ListNotations.
Local Open Scope string_scope.
Local Open Scope list_scope.

(** C58.  For any tables whose token names are words, lexer.rs can be written.  It has exactly one set of the six functions, and running them, as Rust code, gives for every object
    what the model of the Rust lexer gives: a new object, the next token or error (or the panic), the place, and the text at it. *)
Theorem rust_lexer_text_exact : forall al d, (forall node, In node (dfa_nodes d) -> named_node node) ->
  exists file, lexer_rs al d = Ok file /\ types_declared file lexer_types /\ exists F, functions_in file F /\ (forall F', functions_in file F' -> F' = F) /\ lexer_does al d F.
Proof. exact rust_lexer_text_exact_proof. Qed.
(** The lexer of the single token [A] for ["a"]: the arms of its three [match], and the first call on ["ab"]. *)
Example rust_lexer_text_exact_case : (forall node, In node (dfa_nodes one_dfa) -> named_node node) /\ one_arms one_al one_dfa = Some (one_index, one_range, one_automaton) /\
  lexer_next one_al one_dfa (lexer_new [97; 98]%N) = Ok (mkLexer [97; 98]%N [98]%N 0 1, inl (Tk ex_a)) /\ one_call one_al one_dfa (lexer_value (lexer_new [97; 98]%N)) = Some ([lexer_value (mkLexer [97; 98]%N [98]%N 0 1)], Val (VOk (variant "TkA"))).
Proof. split; [exact one_named|]. split; [vm_compute; reflexivity|]. split; [vm_compute; reflexivity|]. vm_compute. reflexivity. Qed.
Print Assumptions rust_lexer_text_exact.

(** C58.  tokens.rs declares the variants of [TokenType]: [EndOfFile] and one for every rule; it cannot be written if a name has an empty part between underscores.  The variants are distinct iff no two
    names are the same up to case and underscores in front of something else than a letter. *)
Theorem rust_tokens_text_exact : forall ns, (forall n, In n ns -> spelled n) ->
  (tokens_rs ns = Panic <-> exists n, In n ns /\ empty_segment n) /\
  ((forall n, In n ns -> ~ empty_segment n) -> exists file vs, tokens_rs ns = Ok file /\ rust_token_variants ns = Ok vs /\ enum_of "TokenType" file = Some vs /\ (NoDup vs <-> NoDup (map kept ns))).
Proof. exact rust_tokens_text_exact_proof. Qed.
Example rust_tokens_text_exact_case : (forall n, In n ["KW_IF"; "ident"] -> spelled n) /\ (forall n, In n ["A__B"] -> spelled n) /\ empty_segment "A__B" /\
  match tokens_rs ["KW_IF"; "ident"] with Ok file => enum_of "TokenType" file = Some ["EndOfFile"; "TkKwIf"; "TkIdent"] | _ => False end.
Proof.
  split; [intros n [<-|[<-|[]]]; apply spelledb_ok; reflexivity|]. split; [intros n [<-|[]]; apply spelledb_ok; reflexivity|]. split; [exists "_A", "B_"; reflexivity|]. vm_compute. reflexivity.
Qed.
Print Assumptions rust_tokens_text_exact.

(** C58.  lexer.rs cannot be written iff a token that the automaton accepts has a name with an empty part between underscores. *)
Theorem rust_lexer_text_panics : forall al d, (forall r, In (Accepting r) (dfa_nodes d) -> spelled (tr_name r)) ->
  (lexer_rs al d = Panic <-> exists r, In (Accepting r) (dfa_nodes d) /\ empty_segment (tr_name r)).
Proof. exact rust_lexer_text_panics_proof. Qed.
Example rust_lexer_text_panics_case : spelled (tr_name under_rule) /\ In (Accepting under_rule) (dfa_nodes under_dfa) /\ empty_segment (tr_name under_rule).
Proof. split; [apply spelledb_ok; reflexivity|]. split; [right; left; reflexivity|]. exists "", "A_". reflexivity. Qed.
Print Assumptions rust_lexer_text_panics.

(** C58.  For the tables of any rules, the calls of [next] in the emitted code return on any text what the model of the Rust lexer returns, without a panic; the tokens are variants of the emitted [TokenType]. *)
Theorem generated_rust_lexer_text : forall fuel rules al d, valid_rules rules -> no_empty_sequence rules -> generate_lexer fuel rules = Ok (al, d) -> (forall r, In r rules -> spelled (tr_name r) /\ ~ empty_segment (tr_name r)) ->
  exists file tokens vs F, lexer_rs al d = Ok file /\ tokens_rs (map tr_name rules) = Ok tokens /\ enum_of "TokenType" tokens = Some vs /\ types_declared file lexer_types /\ functions_in file F /\
  forall src n, Forall valid_char src -> exists rs l, lexer_run al d n (lexer_new src) = Ok rs /\ List.length rs = n /\ next_calls F (lexer_value (lexer_new src)) l /\ Forall2 (same_call vs) rs l.
Proof. exact generated_rust_lexer_text_proof. Qed.
(** Keywords, identifiers, numbers and white space. *)
Example generated_rust_lexer_text_case : valid_rules ex_rules /\ no_empty_sequence ex_rules /\ (forall r, In r ex_rules -> spelled (tr_name r) /\ ~ empty_segment (tr_name r)) /\ (exists al d, generate_lexer 100 ex_rules = Ok (al, d)) /\
  match tokens_rs (map tr_name ex_rules) with Ok file => enum_of "TokenType" file | _ => None end = Some ("EndOfFile" :: ex_variants).
Proof.
  split; [apply valid_rulesb_ok; vm_compute; reflexivity|]. split; [apply no_empty_sequenceb_ok; vm_compute; reflexivity|]. split; [exact ex_spelled|]. split; [do 2 eexists; vm_compute; reflexivity|]. vm_compute. reflexivity.
Qed.
Print Assumptions generated_rust_lexer_text.
