(** Concrete messages used as witnesses beside the theorems about them. *)
From Coq Require Import String Ascii List Arith NArith Bool Lia.
From Verif Require Import Base InputModel LexerSpec LexerModel LexerExample GrammarModel GrammarSpec LLModel LLSpec LLExample LRModel LRSpec LRExample LRErrorExample LRTermExample NamesVisitProof RunModel RunSpec RunProof RunExample RustTokenSpec RustSpec RustLexTextModel RustLexTextSpec RustLexTextExample RustLRTextModel
  RustLRTextSpec RustLREndSpec RustLRGenProof RustLRTextExample RustMessageSpec RustMessageProof.
Import ListNotations.
Local Open Scope string_scope.
Local Open Scope list_scope.

Lemma short_tokens : exists ts, tokenised (rs_tokens sum_rules) short_text ts.
Proof.
  destruct (source_stream sum_rules ll_g 100 sum_al sum_dfa sum_small sum_built sum_usable sum_lexer short_text (proj1 (proj2 texts_valid))) as (ws & b & S & H).
  assert (b = true) as ->; [|destruct H as (ts & H & _); exists ts; exact H]. inversion S as [lx lx' P P'|lx P|lx lx' t ws' b' P S']; subst; vm_compute in P; try discriminate. injection P as <- <-.
  clear S H. inversion S' as [lx lx' P P'|lx P|lx lx' t ws'' b' P S'']; subst; vm_compute in P; try discriminate. injection P as <- <-.
  clear S'. inversion S'' as [lx lx' P P'|lx P|lx lx' t ws''' b' P S''']; subst; vm_compute in P; try discriminate. reflexivity.
Qed.
(** Characters between quotes. *)
Definition plain_char (c : N) : string := String "'" (String (ascii_of_N c) "'").
(** The message the code in a file has for a value. *)
Definition shown (file : res NamesModel.name_err (list tree)) (ty : string) (v : value) : option string :=
  match file with
  | Ok file => get g <- display_of ty file; match function_of "fmt" g with Some (_, [_; _; TGroup Brace b]) => message plain_char (rust_parsers 8) "f" b v | _ => None end
  | _ => None
  end.

(** ** s = A e X | B e Y; e = C, with letters as tokens: the LALR parser on ["ACC"] *)

Definition letter_rules : rule_set :=
  mkRuleSet "s" [mkTokenRule "A" None (TLiteral [65%N]); mkTokenRule "B" None (TLiteral [66%N]); mkTokenRule "C" None (TLiteral [67%N]); mkTokenRule "X" None (TLiteral [88%N]); mkTokenRule "Y" None (TLiteral [89%N])] (rs_prods merge_rules).
Lemma letter_built : from_rule_set letter_rules = Ok merge_g. Proof. vm_compute. reflexivity. Qed.
Lemma letter_small : small letter_rules. Proof. apply GrammarFactsProof.smallb_ok. reflexivity. Qed.
Lemma letter_usable : usable_tokens (rs_tokens letter_rules). Proof. apply usable_ok; vm_compute; reflexivity. Qed.
Definition letter_al : alphabet := Eval vm_compute in fst (lexer_of (rs_tokens letter_rules)).
Definition letter_dfa : dfa token_rule := Eval vm_compute in snd (lexer_of (rs_tokens letter_rules)).
Lemma letter_lexer : generate_lexer 100 (rs_tokens letter_rules) = Ok (letter_al, letter_dfa). Proof. vm_compute. reflexivity. Qed.
Lemma letter_names : usable_names merge_g. Proof. apply usableb_ok. vm_compute. reflexivity. Qed.
Definition letter_text : list N := [65; 67; 67]%N.
Definition letter_error : value := parser_error_value merge_g (UnexpectedTok (Some 2%N) [Some 3%N; Some 4%N]).
Lemma letter_code : exists lfile pfile LF PF self, lexer_rs letter_al letter_dfa = Ok lfile /\ functions_in lfile LF /\ parser_rs merge_g merge_p = Ok pfile /\ parser_functions_in pfile PF /\
  sum_run LF PF letter_text = Some ([self], Val (VErr letter_error)) /\ forall dc, shows dc pfile "ParserError" letter_error "Unexpected token TkC, expected one of: [TkX, TkY]".
Proof.
  pose proof (generated_fits _ _ _ _ _ _ (GrammarFactsProof.grammar_wf _ _ letter_built) merge_tb_ok merge_p_ok) as F.
  exists (RustLexTextProof.lexer_tokens letter_al letter_dfa), (RustLRTextProof.parser_trees merge_g merge_p), (RustLexRunProof.the_functions letter_al letter_dfa), (RustLRParseProof.the_parser merge_g merge_p). eexists.
  split; [exact (RustLexTextProof.lexer_written _ _ (nodes_named letter_rules merge_g 100 letter_al letter_dfa letter_small letter_built letter_usable letter_lexer letter_names))|]. split; [apply RustLexRunProof.the_functions_in|].
  split; [exact (RustLRTextProof.parser_written _ _ letter_built letter_names merge_p F)|]. split; [apply RustLRParseProof.the_parser_in|]. split; [vm_compute; reflexivity|].
  intros dc. exact (parser_shows dc merge_g merge_p (Some 2%N) [Some 3%N; Some 4%N]).
Qed.
Lemma letter_valid : Forall valid_char letter_text. Proof. repeat constructor; unfold valid_char, CHAR_MAX; lia. Qed.
