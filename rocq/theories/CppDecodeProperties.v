(** Property theorems about the text of the decoder and the constructor of emitted C++ lexers (C56). *)
From Coq Require Import String List Arith NArith ZArith Bool Lia.
From Verif Require Import Base InputModel LexerModel CppLexerModel CppLexerSpec TemplateModel TemplateFiles CppTextModel CppTextSpec CppBitsSpec CppLexTextSpec CppClassSpec CppClassProof CppLexTextExample.
From Verif Require CppBitsProof.
Import ListNotations.
Local Open Scope string_scope.
Local Open Scope list_scope.

(** C56.  The text of [utf8_decode] in lexer.cpp, run on any stream of bytes: no step of it is undefined, it sets error flags exactly if the bytes do not begin with the encoding
    of a character, and without flags it returns the character whose encoding it has read, or zero at the end. *)
Theorem decoder_text_exact : forall debug al d, (forall node, In node (dfa_nodes d) -> writable_node debug node) ->
  exists body, has_steps (lexer_cpp_text debug al d) (chars "void utf8_decode(std::istream &in, uint32_t *c, int *e)") body /\
  forall bytes ch err, Forall is_byte bytes ->
  exists m c e rest, steps (decode_memory bytes ch err) body = Some m /\
    find_name "in" m = Some (OStream rest) /\ find_name "*c" m = Some (OArray U32 [Z.of_N c]) /\ find_name "*e" m = Some (OArray I32 [Z.of_N e]) /\
    (e <> 0%N <-> malformed bytes) /\
    (e = 0%N -> (bytes = [] /\ c = 0%N /\ rest = []) \/ exists bs, utf8 c bs /\ bytes = bs ++ rest).
Proof. exact decoder_exact. Qed.
(** The euro sign and a letter; a surrogate half; a truncated character; nothing. *)
Example decoder_text_exact_case : (forall node, In node (dfa_nodes one_dfa) -> writable_node by_name node) /\
  has_steps (lexer_cpp_text by_name one_al one_dfa) (chars "void utf8_decode(std::istream &in, uint32_t *c, int *e)") CppBitsProof.decode_steps /\
  map (fun bytes => match steps (decode_memory bytes 77 88) CppBitsProof.decode_steps with Some m => (find_name "in" m, find_name "*c" m, find_name "*e" m) | None => (None, None, None) end)
    [[0xE2; 0x82; 0xAC; 0x41]; [0xED; 0xA0; 0x80]; [0xE2; 0x82]; []]%N =
  [(Some (OStream [0x41%N]), Some (OArray U32 [0x20AC]), Some (OArray I32 [0])); (Some (OStream []), Some (OArray U32 [0xD800]), Some (OArray I32 [32]));
   (Some (OStream []), Some (OArray U32 [0x2080]), Some (OArray I32 [2])); (Some (OStream []), Some (OArray U32 [0]), Some (OArray I32 [0]))]%Z.
Proof. split; [exact one_writable|]. split; [exact (CppBitsProof.decode_text by_name one_al one_dfa one_writable)|]. vm_compute. reflexivity. Qed.
Print Assumptions decoder_text_exact.

(** C56.  A text has at most one function with a header, so that the one above is the one that is compiled. *)
Theorem decoder_text_once : forall t h l l', has_steps t h l -> has_steps t h l' -> l = l'.
Proof. exact CppBitsProof.steps_once. Qed.
Example decoder_text_once_case : exists l, has_steps (lexer_cpp_text by_name one_al one_dfa) decode_head l /\ (List.length l = 23)%nat.
Proof. exists CppBitsProof.decode_steps. split; [exact (CppBitsProof.decode_text by_name one_al one_dfa one_writable)|reflexivity]. Qed.
Print Assumptions decoder_text_once.

(** C56.  The constructor in lexer.cpp initialises every member of the class in lexer.h once, in the types of the class with the values of a new lexer, and so is the only object. *)
Theorem constructor_text_new : forall debug al d P bytes, (forall node, In node (dfa_nodes d) -> writable_node debug node) ->
  constructs P lexer_h (lexer_cpp_text debug al d) (chars "Lexer::Lexer(std::istream &in)") "Lexer" (mkStore [("in", VStream bytes)] []) (members (lexer_object (cpp_new bytes))) /\
  forall values, constructs P lexer_h (lexer_cpp_text debug al d) (chars "Lexer::Lexer(std::istream &in)") "Lexer" (mkStore [("in", VStream bytes)] []) values -> values = members (lexer_object (cpp_new bytes)).
Proof. exact constructor_new. Qed.
Example constructor_text_new_case : (forall node, In node (dfa_nodes one_dfa) -> writable_node by_name node) /\
  members (lexer_object (cpp_new [97%N])) = [("in_chars", VStream [97%N]); ("ch", VInt U32 4294967295); ("err", VInt I32 0); ("position", VInt U64 0); ("start_pos", VInt U64 0); ("end_pos", VInt U64 0)]%Z.
Proof. split; [exact one_writable|reflexivity]. Qed.
Print Assumptions constructor_text_new.
